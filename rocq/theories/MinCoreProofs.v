(** * Proofs about the search for minimal unrealizable cores *)

From Coq Require Import String Ascii List Bool Arith NArith Lia Permutation.
From Verif Require Import BDD Loop Spec VarTypes Synth Sem FormulaSpec Parser ParserProofs FileSpec GameExt FileProofs
  Execute Explicit OutputProofs SymbolicProofs FastSlowFile CommandLine MinCoreSpec MinCore MonoProofs PropsParser.
Import ListNotations.
Local Open Scope string_scope.

(** ** Acceptance of formulas under another order of declarations *)

Definition shape (v v' : option BF) : Prop := v = None <-> v' = None.

Section SHAPE.
  Variables names names' : list string.
  Variables types types' allowed : list VariableType.
  Variable ord : nat -> bool.
  Hypothesis Hvar : forall w i, findVar names 0 w = Some i ->
    existsb (vt_eqb (nth i types NoneVariableType)) allowed = true ->
    exists i', findVar names' 0 w = Some i' /\ existsb (vt_eqb (nth i' types' NoneVariableType)) allowed = true.

  Definition follows (x y : pres (option BF * string)) : Prop :=
    forall v r, x = POk (v, r) -> exists v', y = POk (v', r) /\ shape v v'.

  Lemma shape_op2 f v1 v1' v2 v2' v : shape v1 v1' -> shape v2 v2' -> op2 f v1 v2 = POk v ->
    exists v', op2 f v1' v2' = POk v' /\ shape v v'.
  Proof.
    unfold shape. intros S1 S2. destruct v1 as [a|], v2 as [b|]; cbn; try discriminate. intros E. injection E as <-.
    destruct v1' as [a'|]; [|destruct S1 as [_ S1]; now specialize (S1 eq_refl)].
    destruct v2' as [b'|]; [|destruct S2 as [_ S2]; now specialize (S2 eq_refl)].
    cbn. eexists. split; [reflexivity|]. split; discriminate.
  Qed.

  Lemma shape_recall n vals vals' k : Forall2 shape vals vals' -> shape (recall (mkMem n vals) k) (recall (mkMem n vals') k).
  Proof.
    unfold recall. cbn [mvals]. intros F. revert k. induction F as [|v v' l l' S F IH]; intros k; cbn; [unfold shape; tauto|].
    destruct (k =? 0)%N; auto.
  Qed.

  Lemma parseRec_shape fuel : forall n vals vals' s, Forall2 shape vals vals' ->
    follows (parseRec names types allowed ord fuel (mkMem n vals) s) (parseRec names' types' allowed ord fuel (mkMem n vals') s).
  Proof.
    induction fuel as [|fuel IH]; intros n vals vals' s F v r; [discriminate|].
    rewrite (parseRec_eq names), (parseRec_eq names'). destruct (readToken s) as [op s1].
    assert (Hbin : forall f, binF ord (parseRec names types allowed ord fuel) (mkMem n vals) s1 f = POk (v, r) ->
       exists v', binF ord (parseRec names' types' allowed ord fuel) (mkMem n vals') s1 f = POk (v', r) /\ shape v v').
    { intros f. unfold binF. destruct (parseRec names types allowed ord fuel _ s1) as [[v1 s2]|e| |] eqn:E1; cbn [pbind]; try discriminate.
      destruct (IH _ _ _ _ F _ _ E1) as (v1' & -> & S1). cbn [pbind].
      destruct (parseRec names types allowed ord fuel _ s2) as [[v2 s3]|e| |] eqn:E2; cbn [pbind]; try discriminate.
      destruct (IH _ _ _ _ F _ _ E2) as (v2' & -> & S2). cbn [pbind].
      destruct (ord (String.length s1)).
      - destruct (op2 f v1 v2) as [w|e| |] eqn:E; cbn [pbind]; try discriminate. intros X. injection X as <- <-.
        destruct (shape_op2 _ _ _ _ _ _ S1 S2 E) as (w' & -> & SW). cbn [pbind]. eauto.
      - destruct (op2 f v2 v1) as [w|e| |] eqn:E; cbn [pbind]; try discriminate. intros X. injection X as <- <-.
        destruct (shape_op2 _ _ _ _ _ _ S2 S1 E) as (w' & -> & SW). cbn [pbind]. eauto. }
    destruct (String.eqb op ""); [discriminate|].
    destruct (String.eqb op "|"); [apply Hbin|].
    destruct (String.eqb op "^"); [apply Hbin|].
    destruct (String.eqb op "&"); [apply Hbin|].
    destruct (String.eqb op "!").
    { destruct (parseRec names types allowed ord fuel _ s1) as [[v1 s2]|e| |] eqn:E1; cbn [pbind]; try discriminate.
      destruct (IH _ _ _ _ F _ _ E1) as (v1' & -> & S1). cbn [pbind].
      destruct v1 as [b|]; cbn [op1 pbind]; [|discriminate]. intros X. injection X as <- <-.
      destruct v1' as [b'|]; [|destruct S1 as [_ S1]; now specialize (S1 eq_refl)].
      cbn [op1 pbind]. eexists. split; [reflexivity|]. split; discriminate. }
    destruct (String.eqb op "1"); [intros X; injection X as <- <-; eexists; split; [reflexivity|split; discriminate]|].
    destruct (String.eqb op "0"); [intros X; injection X as <- <-; eexists; split; [reflexivity|split; discriminate]|].
    destruct (String.eqb op "$").
    { destruct (readUnsigned s1) as [[n' s2]|]; [|discriminate].
      assert (EL : forall k left vs vs' s', Forall2 shape vs vs' -> elemsF (parseRec names types allowed ord fuel) n' k left vs s' = POk (v, r) ->
        exists v', elemsF (parseRec names' types' allowed ord fuel) n' k left vs' s' = POk (v', r) /\ shape v v').
      { induction k as [|k IHk]; intros left vs vs' s' FV; cbn [elemsF];
          (destruct (left =? 0)%N; [destruct (n' =? 0)%N; [discriminate|]; intros X; injection X as <- <-;
            eexists; split; [reflexivity|]; now apply shape_recall|]); [discriminate|].
        destruct (parseRec names types allowed ord fuel (mkMem n' vs) s') as [[w q]|e| |] eqn:E; cbn [pbind]; try discriminate.
        destruct (IH _ _ _ _ FV _ _ E) as (w' & -> & SW). cbn [pbind]. apply IHk. apply Forall2_app; auto. }
      apply EL. constructor. }
    destruct (String.eqb op "?").
    { destruct (readUnsigned s1) as [[k s2]|]; [|discriminate]. cbn [msize]. destruct (n <=? k)%N; [discriminate|].
      intros X. injection X as <- <-. eexists. split; [reflexivity|]. now apply shape_recall. }
    destruct (findVar names 0 op) as [i|] eqn:E; [|discriminate].
    destruct (existsb (vt_eqb (nth i types NoneVariableType)) allowed) eqn:EA; [|discriminate].
    destruct (Hvar _ _ E EA) as (i' & -> & ->). intros X. injection X as <- <-. eexists. split; [reflexivity|]. split; discriminate.
  Qed.

  Lemma parse_shape line b : parseFormula names types allowed ord line = POk (Some b) ->
    exists b', parseFormula names' types' allowed ord line = POk (Some b').
  Proof.
    unfold parseFormula. destruct (parseRec names types allowed ord _ _ line) as [[w r]|e| |] eqn:E; cbn [pbind]; try discriminate.
    destruct (parseRec_shape _ _ _ _ _ (Forall2_nil _) _ _ E) as (w' & -> & S). cbn [pbind].
    destruct (String.eqb _ ""); [|discriminate]. intros X. injection X as ->.
    destruct w' as [b'|]; [eauto|]. destruct S as [_ S]. now specialize (S eq_refl).
  Qed.
End SHAPE.

Lemma accept_move ord L L' s line b : NoDup (declared L) -> NoDup (declared L') -> demands_less L L' -> formulaSection s = true ->
  lineVal ord L s line = POk (Some b) -> exists b', lineVal ord L' s line = POk (Some b').
Proof.
  intros ND ND' Less Hs. unfold lineVal. apply parse_shape. intros w i E A.
  assert (V : var_ok (declared L) (typesF L) (allowedF s) w i).
  { split; [now apply findVar_0|now apply allowed_spec]. }
  apply var_ok_file in V; auto. apply (sg_var L L' ND' Less) in V. apply var_ok_file in V; auto.
  destruct V as [V1 V2]. eexists. split; [apply findVar_0; exact V1|now apply allowed_spec].
Qed.

(** ** Formulas are unique *)

Lemma demands_less_refl L : demands_less L L.
Proof. repeat split; auto. Qed.

Lemma realizable_exclusive L : NoDup (declared L) -> file_realizable L -> file_unrealizable L -> False.
Proof.
  intros ND (fs & F & R) (fs' & F' & U). 
  destruct (realizable_mono L L ND ND (demands_less_refl L) fs fs' F F' R) as (f & Hf). destruct (U f) as (x & Hx). auto.
Qed.

(** ** Canonical texts *)

Definition LS (order : list section) (d : categories) : items := flat_map (fun s => map (pair s) (d s)) order.

Lemma in_LS order d s l : In (s, l) (LS order d) <-> In s order /\ In l (d s).
Proof.
  unfold LS. rewrite in_flat_map. split.
  - intros (s' & H1 & H2). apply in_map_iff in H2. destruct H2 as (l' & E & H2). injection E as -> ->. auto.
  - intros [H1 H2]. exists s. split; auto. apply in_map_iff. eauto.
Qed.

Lemma linesOf_map_same s ls : linesOf s (map (pair s) ls) = ls.
Proof. unfold linesOf. induction ls as [|l ls IH]; cbn; [reflexivity|]. assert (E : sec_eqb s s = true) by now apply sec_eqb_eq. rewrite E. cbn. now f_equal. Qed.
Lemma linesOf_map_other s s' ls : s <> s' -> linesOf s (map (pair s') ls) = [].
Proof.
  intros N. unfold linesOf. induction ls as [|l ls IH]; cbn; [reflexivity|].
  destruct (sec_eqb s' s) eqn:E; auto. apply sec_eqb_eq in E. congruence.
Qed.

Lemma linesOf_LS order d s : NoDup order -> linesOf s (LS order d) = if existsb (sec_eqb s) order then d s else [].
Proof.
  unfold LS. induction order as [|s' order IH]; intros ND; [reflexivity|]. inversion ND as [|? ? N1 N2]; subst.
  cbn [flat_map existsb]. rewrite linesOf_app, IH by auto. destruct (sec_eqb s s') eqn:E; cbn [orb].
  - apply sec_eqb_eq in E. subst s'. rewrite linesOf_map_same.
    assert (X : existsb (sec_eqb s) order = false).
    { destruct (existsb (sec_eqb s) order) eqn:X; auto. apply existsb_exists in X. destruct X as (y & Hy & Ey).
      apply sec_eqb_eq in Ey. subst y. contradiction. }
    now rewrite X, app_nil_r.
  - rewrite linesOf_map_other; [reflexivity|]. intros ->. assert (sec_eqb s' s' = true) by now apply sec_eqb_eq. congruence.
Qed.

Definition goodLine (l : string) : Prop :=
  strip l = l /\ noNl l /\ exists a r, l = String a r /\ (a =? "#")%char = false /\ (a =? "[")%char = false.

Lemma keyOf_header s : keyOf (header s) = Some s.
Proof. destruct s; reflexivity. Qed.

Lemma layout_lines s : forall ls rest, Forall goodLine ls -> layout (Some s) (ls ++ rest)%list =
  match layout (Some s) rest with Some L => Some (map (pair s) ls ++ L)%list | None => None end.
Proof.
  induction ls as [|l ls IH]; intros rest F; cbn [app map]; [now destruct (layout _ rest)|].
  inversion F as [|? ? (G1 & _ & a & r & El & A1 & A2) F']; subst. cbn [layout]. rewrite G1, A1, A2, IH by auto.
  destruct (layout (Some s) rest); reflexivity.
Qed.

Lemma layout_header cur s ls : layout cur (header s :: ls) = layout (Some s) ls.
Proof. cbn [layout]. destruct s; reflexivity. Qed.

Lemma layout_core pad d : (forall s, Forall goodLine (d s)) -> (pad = [] \/ pad = [""]) -> forall order cur,
  layout cur (flat_map (fun s => header s :: d s ++ pad)%list order) = Some (LS order d).
Proof.
  intros G HP. induction order as [|s order IH]; intros cur; [reflexivity|]. cbn [flat_map LS].
  rewrite <- app_comm_cons, layout_header, <- app_assoc, layout_lines by auto.
  destruct HP as [-> | ->]; cbn [app]; [|cbn [layout]; change (strip "") with ""; cbn beta iota]; rewrite IH; reflexivity.
Qed.

Lemma noNl_header s : noNl (header s).
Proof. destruct s; now apply noNl_lit. Qed.

Lemma core_noNl pad d order : (forall s, Forall goodLine (d s)) -> (pad = [] \/ pad = [""]) ->
  Forall noNl (flat_map (fun s => header s :: d s ++ pad)%list order).
Proof.
  intros G HP. apply Forall_forall. intros l H. apply in_flat_map in H. destruct H as (s & _ & [<-|H]); [apply noNl_header|].
  apply in_app_iff in H. destruct H as [H|H].
  - specialize (G s). rewrite Forall_forall in G. now destruct (G l H) as (_ & N & _).
  - destruct HP as [-> | ->]; [contradiction|]. destruct H as [<-|[]]. intros a [].
Qed.

Lemma layout_text pad d order : (forall s, Forall goodLine (d s)) -> (pad = [] \/ pad = [""]) ->
  layout None (file_lines (textOf (flat_map (fun s => header s :: d s ++ pad)%list order))) = Some (LS order d).
Proof.
  intros G HP. change (textOf ?x) with (unlines x). rewrite file_lines_unlines by now apply core_noNl. now apply layout_core.
Qed.

(** ** Reading *)

Lemma noNl_strip l : noNl l -> noNl (strip l).
Proof.
  intros N a H. apply N. unfold strip in H. rewrite list_ascii_of_string_of_list_ascii in H.
  assert (D : forall x, incl (dropWs x) x).
  { induction x as [|b x IH]; cbn; [intros y []|]. destruct (isWs b); [|apply incl_refl]. now apply incl_tl. }
  apply in_rev in H. apply D in H. apply in_rev in H. now apply D in H.
Qed.

Lemma layout_good : forall lines cur L, Forall noNl lines -> layout cur lines = Some L -> forall p, In p L -> goodLine (snd p).
Proof.
  induction lines as [|l lines IH]; intros cur L N; cbn [layout]; [intros E; injection E as <-; intros p []|].
  inversion N as [|? ? N1 N2]; subst.
  destruct (strip l) as [|a r] eqn:S; [eauto|]. destruct (a =? "#")%char eqn:A1; [eauto|].
  destruct (a =? "[")%char eqn:A2; [destruct (find _ sections); [eauto|discriminate]|].
  destruct cur as [s|]; [|discriminate]. destruct (layout (Some s) lines) as [L3|] eqn:E; [|discriminate].
  intros X. injection X as <-. intros p [<-|Hp]; [|eauto]. cbn [snd]. rewrite <- S. split; [apply strip_idem|].
  split; [now apply noNl_strip|]. rewrite S. eauto.
Qed.

Definition nameOf (cur : option section) : string := match cur with Some s => header s | None => "" end.

Lemma read_spec : forall lines cur d L, layout cur lines = Some L -> 
  exists d', readCategories (nameOf cur) d lines = Some d' /\ forall s, d' s = (d s ++ linesOf s L)%list.
Proof.
  induction lines as [|l lines IH]; intros cur d L; cbn [layout readCategories].
  - intros E. injection E as <-. exists d. split; auto. intros s. now rewrite app_nil_r.
  - rewrite trim_spec. destruct (strip l) as [|a r] eqn:S; [apply IH|]. destruct (a =? "#")%char eqn:A1; [apply IH|].
    destruct (a =? "[")%char eqn:A2.
    + destruct (find _ sections) as [s|] eqn:Fd; [|discriminate]. intros E.
      apply find_some in Fd. destruct Fd as [_ Fd]. apply String.eqb_eq in Fd. rewrite <- Fd.
      apply (IH (Some s) d L E).
    + destruct cur as [s|]; [|discriminate]. destruct (layout (Some s) lines) as [L3|] eqn:E; [|discriminate].
      intros X. injection X as <-. cbn [nameOf]. rewrite keyOf_header.
      destruct (IH (Some s) (setLines d s (d s ++ [String a r])%list) L3 E) as (d' & R & H). cbn [nameOf] in R.
      exists d'. split; auto. intros s'. rewrite H. unfold setLines, linesOf. cbn [filter fst].
      destruct (sec_eqb s' s) eqn:X.
      * apply sec_eqb_eq in X. subst s'. assert (X : sec_eqb s s = true) by now apply sec_eqb_eq. rewrite X. cbn [map snd].
        now rewrite <- app_assoc.
      * destruct (sec_eqb s s') eqn:Y; auto. apply sec_eqb_eq in Y. subst s'.
        assert (Z : sec_eqb s s = true) by now apply sec_eqb_eq. congruence.
Qed.

(** ** The loop *)

Section SHRINK.
  Variable test : list string -> option bool.
  Variables R U : list string -> Prop.
  Variable all : list string.
  Hypothesis Test : forall ls, incl ls all -> (test ls = Some true /\ R ls) \/ (test ls = Some false /\ U ls).
  Hypothesis Mono : forall ls ls', incl ls all -> incl ls' ls -> R ls -> R ls'.
  Hypothesis Excl : forall ls, incl ls all -> R ls -> U ls -> False.

  Lemma shrink_total : forall rest kept, incl (kept ++ rest)%list all -> exists out, shrink test kept rest = Some out /\
    incl out (kept ++ rest)%list.
  Proof.
    induction rest as [|l rest IH]; intros kept H; cbn [shrink]; [exists kept; rewrite app_nil_r; split; auto; apply incl_refl|].
    assert (I1 : incl (kept ++ rest) (kept ++ l :: rest)).
    { intros x Hx. apply in_app_iff in Hx. apply in_app_iff. cbn. tauto. }
    destruct (Test (kept ++ rest)%list) as [[-> _]|[-> _]]; [now apply (incl_tran I1)| |].
    - destruct (IH (kept ++ [l])%list) as (out & E & I2).
      { rewrite <- app_assoc. exact H. }
      exists out. split; auto. rewrite <- app_assoc in I2. exact I2.
    - destruct (IH kept) as (out & E & I2); [now apply (incl_tran I1)|]. exists out. split; auto. now apply (incl_tran I2).
  Qed.

  Lemma shrink_core : forall rest kept out, incl (kept ++ rest)%list all -> shrink test kept rest = Some out ->
    U (kept ++ rest)%list ->
    (forall A l B, kept = (A ++ l :: B)%list -> R (A ++ B ++ rest)%list) ->
    U out /\ forall A l B, out = (A ++ l :: B)%list -> R (A ++ B)%list.
  Proof.
    induction rest as [|l rest IH]; intros kept out I E HU Inv; cbn [shrink] in E.
    - injection E as <-. rewrite app_nil_r in HU. split; auto. intros A l B ->. specialize (Inv A l B eq_refl). now rewrite app_nil_r in Inv.
    - assert (I1 : incl (kept ++ rest) (kept ++ l :: rest)).
      { intros x Hx. apply in_app_iff in Hx. apply in_app_iff. cbn. tauto. }
      pose proof (incl_tran I1 I) as I2.
      destruct (Test (kept ++ rest)%list I2) as [[Et HR]|[Et HU']]; rewrite Et in E.
      + apply (IH (kept ++ [l])%list out); auto.
        * rewrite <- app_assoc. exact I.
        * rewrite <- app_assoc. exact HU.
        * intros A x B EK. destruct (exists_last (l := x :: B)) as (B0 & y & EB); [discriminate|].
          rewrite EB in EK. rewrite app_assoc in EK. apply app_inj_tail in EK. destruct EK as [EK <-].
          destruct B0 as [|z B0].
          -- cbn in EB. injection EB as -> ->. rewrite app_nil_r in EK. subst A. exact HR.
          -- cbn in EB. injection EB as -> ->. rewrite <- app_assoc. cbn [app]. apply (Inv A z B0). exact EK.
      + apply (IH kept out); auto. intros A x B EK. apply (Mono (A ++ B ++ l :: rest)%list).
        * subst kept. intros y Hy. apply I. rewrite !in_app_iff in *. cbn in *. tauto.
        * intros y Hy. rewrite !in_app_iff in *. cbn. tauto.
        * now apply (Inv A x B).
  Qed.

  Lemma shrink_realizable : forall rest kept, incl (kept ++ rest)%list all -> R (kept ++ rest)%list -> shrink test kept rest = Some (kept ++ rest)%list.
  Proof.
    induction rest as [|l rest IH]; intros kept I HR; cbn [shrink]; [now rewrite app_nil_r|].
    assert (I1 : incl (kept ++ rest) (kept ++ l :: rest)).
    { intros x Hx. apply in_app_iff in Hx. apply in_app_iff. cbn. tauto. }
    pose proof (incl_tran I1 I) as I2.
    destruct (Test (kept ++ rest)%list I2) as [[Et _]|[_ HU]].
    - rewrite Et. rewrite IH by (rewrite <- app_assoc; auto). now rewrite <- app_assoc.
    - exfalso. apply (Excl (kept ++ rest)%list I2); auto. now apply (Mono (kept ++ l :: rest)%list).
  Qed.
End SHRINK.

(** ** Variants of a file *)

Lemma linesOf_cons_same s l L : linesOf s ((s, l) :: L) = l :: linesOf s L.
Proof. unfold linesOf. cbn [filter fst]. assert (E : sec_eqb s s = true) by now apply sec_eqb_eq. rewrite E. reflexivity. Qed.

Lemma decls_perm L : Permutation (decls L) (map (pair SInput) (linesOf SInput L) ++ map (pair SOutput) (linesOf SOutput L)).
Proof.
  induction L as [|[s l] L IH]; [constructor|]. destruct s; unfold decls, linesOf in *; cbn; auto.
  now apply Permutation_cons_app.
Qed.

Lemma decls_LS d rest : Forall (fun s => formulaSection s = true) rest ->
  decls (LS (SInput :: SOutput :: rest) d) = (map (pair SInput) (d SInput) ++ map (pair SOutput) (d SOutput))%list.
Proof.
  intros F. unfold decls, LS. cbn [flat_map]. rewrite !filter_app.
  assert (K : forall s ls, formulaSection s = false -> filter (fun p : section * string => negb (formulaSection (fst p))) (map (pair s) ls) = map (pair s) ls).
  { intros s ls H. induction ls as [|l ls IH]; cbn; auto. rewrite H. cbn. now f_equal. }
  rewrite !K by reflexivity. f_equal.
  assert (Z : filter (fun p : section * string => negb (formulaSection (fst p))) (flat_map (fun s => map (pair s) (d s)) rest) = []).
  { induction F as [|s rest Hs F IH]; cbn [flat_map]; auto. rewrite filter_app, IH, app_nil_r.
    induction (d s) as [|l ls IHl]; cbn; auto. rewrite Hs. cbn. exact IHl. }
  now rewrite Z, app_nil_r.
Qed.

Lemma split_formula P : forall Q A s line B, Forall (fun p : section * string => formulaSection (fst p) = false) P ->
  Forall (fun p : section * string => formulaSection (fst p) = true) Q ->
  (P ++ Q = A ++ (s, line) :: B)%list -> formulaSection s = true -> decls A = P.
Proof.
  induction P as [|p P IH]; intros Q A s line B FP FQ E Hs; cbn [app] in E.
  - subst Q. apply Forall_app in FQ. destruct FQ as [FA _]. unfold decls. induction FA as [|q A H FA IHA]; cbn; auto. rewrite H. exact IHA.
  - inversion FP as [|? ? H1 H2]; subst. destruct A as [|a A].
    + cbn in E. injection E as -> _. cbn in H1. congruence.
    + cbn in E. injection E as -> E. unfold decls. cbn [filter]. rewrite H1. cbn [negb]. f_equal. eapply IH; eauto.
Qed.

Lemma typesF_decls L : typesF L = flat_map (fun p => match fst p with SInput => [PreInput; PostInput] | SOutput => [PreOutput; PostOutput] | _ => [] end) (decls L).
Proof. induction L as [|[[] l] L IH]; [reflexivity|..]; unfold decls, typesF in *; cbn; rewrite ?IH; reflexivity. Qed.

Definition orders (order : list section) : Prop :=
  NoDup order /\ (forall s, In s order) /\
  exists rest, order = SInput :: SOutput :: rest /\ Forall (fun s => formulaSection s = true) rest.

Lemma orders_live : orders orderLive.
Proof. split; [repeat constructor; cbn; intuition discriminate|]. split; [intros []; cbn; tauto|]. eexists. split; [reflexivity|]. repeat constructor. Qed.
Lemma orders_trans : orders orderTrans.
Proof. split; [repeat constructor; cbn; intuition discriminate|]. split; [intros []; cbn; tauto|]. eexists. split; [reflexivity|]. repeat constructor. Qed.

Lemma linesOf_orders order d s : orders order -> linesOf s (LS order d) = d s.
Proof.
  intros (ND & HA & _). rewrite linesOf_LS by auto.
  assert (E : existsb (sec_eqb s) order = true) by (apply existsb_exists; exists s; split; auto; now apply sec_eqb_eq).
  now rewrite E.
Qed.

(** Files with other orders of the lines and fewer guarantees are accepted, and the verdict is right. *)
Section VARIANTS.
  Variable ord : nat -> bool.
  Variable content : string.
  Variable c : ctx.
  Variable L : items.
  Hypothesis E : initContext ord content = POk c.
  Hypothesis El : layout None (file_lines content) = Some L.
  Hypothesis PF : plain_file L.

  Definition variant (d : categories) : Prop :=
    (forall s, guarantees s = false -> d s = linesOf s L) /\ (forall s, incl (d s) (linesOf s L)).

  Lemma ND : NoDup (declared L).
  Proof. destruct (initContext_inv _ _ _ E) as (L0 & bs & El0 & ND & _). rewrite El in El0. now injection El0 as <-. Qed.

  Lemma accepted_line s line : formulaSection s = true -> In (s, line) L -> exists b, lineVal ord L s line = POk (Some b).
  Proof.
    intros Hs H. destruct (initContext_inv _ _ _ E) as (L0 & bs & El0 & _ & HV & _). rewrite El in El0. injection El0 as <-.
    apply in_linesOf in H. destruct (Forall2_in_l _ _ _ _ (HV s Hs) H) as (b & _ & Hb). eauto.
  Qed.

  Lemma good_lines d : (forall s, incl (d s) (linesOf s L)) -> forall s, Forall goodLine (d s).
  Proof.
    intros V s. apply Forall_forall. intros l H. apply V in H. apply in_linesOf in H.
    apply (layout_good _ _ _ (file_lines_noNl content) El _ H).
  Qed.

  Lemma variant_sections d d' order order' : variant d -> variant d' -> orders order -> orders order' ->
    (forall s, incl (d' s) (d s)) -> demands_less (LS order d) (LS order' d').
  Proof.
    intros [V1 V2] [V1' V2'] (_ & HA & _) (_ & HA' & _) I. split; [|split]; intros s l Hs; rewrite ?in_LS.
    - assert (guarantees s = false) by now destruct s. rewrite V1, V1' by auto. split; intros []; auto.
    - assert (guarantees s = false) by now destruct s. rewrite V1, V1' by auto. intros []; auto.
    - intros [_ H]. split; auto. now apply I.
  Qed.

  Lemma variant_less d order : variant d -> orders order -> demands_less L (LS order d).
  Proof.
    intros [V1 V2] (_ & HA & _). split; [|split]; intros s l Hs; rewrite ?in_LS.
    - rewrite V1, in_linesOf by now destruct s. split; auto. tauto.
    - rewrite V1, in_linesOf by now destruct s. auto.
    - intros [_ H]. apply V2 in H. now apply in_linesOf.
  Qed.

  Lemma variant_decls d order : variant d -> orders order ->
    decls (LS order d) = (map (pair SInput) (linesOf SInput L) ++ map (pair SOutput) (linesOf SOutput L))%list.
  Proof. intros [V1 _] (_ & _ & rest & -> & F). rewrite decls_LS by auto. rewrite !V1 by reflexivity. reflexivity. Qed.

  Lemma variant_NoDup d order : variant d -> orders order -> NoDup (declared (LS order d)).
  Proof.
    intros V O. rewrite declared_decls, (variant_decls d order V O). eapply Permutation_NoDup; [|exact ND].
    rewrite declared_decls. apply Permutation_flat_map. apply decls_perm.
  Qed.

  Lemma variant_accepted d order text : variant d -> orders order -> layout None (file_lines text) = Some (LS order d) ->
    exists c', initContext ord text = POk c'.
  Proof.
    intros V O ET. apply (initContext_accepts ord text (LS order d)); auto; [now apply variant_NoDup|].
    intros A s line B EQ Hs.
    assert (Hin : In (s, line) L).
    { assert (In (s, line) (LS order d)) by (rewrite EQ; apply in_app_iff; right; now left).
      apply in_LS in H. destruct V as [_ V]. apply in_linesOf. now apply V. }
    destruct (accepted_line s line Hs Hin) as (b & Hb).
    destruct (accept_move ord L (LS order d) s line b ND (variant_NoDup d order V O) (variant_less d order V O) Hs Hb) as (b' & Hb').
    exists b'. rewrite <- Hb'. unfold lineVal.
    rewrite (typesF_decls A), (typesF_decls (LS order d)), (declared_decls A), (declared_decls (LS order d)).
    replace (decls A) with (decls (LS order d)); auto. symmetry.
    pose proof O as (_ & _ & rest & Eo & F). rewrite Eo in EQ |- *. rewrite decls_LS by auto.
    unfold LS in EQ. cbn [flat_map] in EQ. rewrite app_assoc in EQ. apply (split_formula _ _ _ _ _ _) in EQ; [exact EQ|..|exact Hs].
    - apply Forall_app. split; apply Forall_forall; intros p Hp; apply in_map_iff in Hp; destruct Hp as (l & <- & _); reflexivity.
    - apply Forall_forall. intros p Hp. apply in_flat_map in Hp. destruct Hp as (s' & Hs' & Hp).
      rewrite Forall_forall in F. apply in_map_iff in Hp. destruct Hp as (l & <- & _). cbn. auto.
  Qed.

  Lemma variant_plain d order : variant d -> plain_file (LS order d).
  Proof. intros [_ V] s line Hs H. apply in_LS in H. apply (PF s line Hs). apply in_linesOf. now apply V. Qed.

  Lemma variant_verdict d order text : variant d -> orders order -> layout None (file_lines text) = Some (LS order d) ->
    (verdictOfFile ord text = Some true /\ file_realizable (LS order d)) \/
    (verdictOfFile ord text = Some false /\ file_unrealizable (LS order d)).
  Proof.
    intros V O ET. destruct (variant_accepted d order text V O ET) as (c' & Ec).
    destruct (C41_accepted_file ord text c' _ Ec ET (variant_plain d order V)) as (fs & F & [[Ev R]|[Ev U]]);
      unfold verdictOfFile; rewrite Ev; [left|right]; split; auto; exists fs; auto.
  Qed.

  Lemma variant_text d order : variant d -> orders order ->
    layout None (file_lines (textOf (coreLines order d))) = Some (LS order d).
  Proof.
    intros V O. pose proof (layout_text [] d order (good_lines d (proj2 V)) (or_introl eq_refl)) as H.
    erewrite (flat_map_ext _ (fun s => header s :: d s)) in H; [exact H|]. intros s. cbv beta. now rewrite app_nil_r.
  Qed.

  Lemma variant_realizable d d' order order' : variant d -> variant d' -> orders order -> orders order' ->
    (forall s, incl (d' s) (d s)) -> file_realizable (LS order d) -> file_realizable (LS order' d').
  Proof.
    intros V V' O O' I (fs & F & R). 
    pose proof (variant_sections d d' order order' V V' O O' I) as Less.
    destruct (formulas_mono (LS order d) (LS order' d') (variant_NoDup d' order' V' O') Less fs F) as (fs' & F').
    - intros s l _. rewrite !in_LS. intros [_ H]. destruct O as (_ & HA & _). split; auto. now apply I.
    - exists fs'. split; auto. eapply (realizable_mono (LS order d) (LS order' d')); eauto; now apply variant_NoDup.
  Qed.

  Lemma variant_unrealizable d d' order order' : variant d -> variant d' -> orders order -> orders order' ->
    (forall s, incl (d' s) (d s)) -> file_unrealizable (LS order' d') -> 
    (exists fs, formulas_of true (LS order d) fs) -> file_unrealizable (LS order d).
  Proof.
    intros V V' O O' I (fs' & F' & R) (fs & F). exists fs. split; auto.
    eapply (defeat_mono (LS order d) (LS order' d')); eauto; try (now apply variant_NoDup). now apply variant_sections.
  Qed.

  (** Dropping lines of one section. *)
  Lemma variant_set d s ls : variant d -> guarantees s = true -> incl ls (linesOf s L) -> variant (setLines d s ls).
  Proof.
    intros [V1 V2] Hs I. split; intros s'; unfold setLines; destruct (sec_eqb s' s) eqn:X; auto.
    - apply sec_eqb_eq in X. subst s'. congruence.
    - apply sec_eqb_eq in X. subst s'. exact I.
  Qed.

  Lemma set_incl d s ls ls' : incl ls' ls -> forall s', incl (setLines d s ls' s') (setLines d s ls s').
  Proof. intros I s'. unfold setLines. destruct (sec_eqb s' s); auto. apply incl_refl. Qed.

  Let test (order : list section) (d : categories) s ls := verdictOfFile ord (textOf (coreLines order (setLines d s ls))).

  Lemma test_spec order d s : variant d -> orders order -> guarantees s = true -> forall ls, incl ls (d s) ->
    (test order d s ls = Some true /\ file_realizable (LS order (setLines d s ls))) \/
    (test order d s ls = Some false /\ file_unrealizable (LS order (setLines d s ls))).
  Proof.
    intros V O Hs ls I.
    assert (V' : variant (setLines d s ls)) by (apply variant_set; auto; eapply incl_tran; [exact I|]; apply V).
    apply (variant_verdict _ order); auto. now apply variant_text.
  Qed.

  Lemma test_mono order d s : variant d -> orders order -> guarantees s = true -> forall ls ls', incl ls (d s) -> incl ls' ls ->
    file_realizable (LS order (setLines d s ls)) -> file_realizable (LS order (setLines d s ls')).
  Proof.
    intros V O Hs ls ls' I I'. assert (I2 : incl ls (linesOf s L)) by (eapply incl_tran; [exact I|]; apply V).
    apply variant_realizable; auto; try apply variant_set; auto; [now apply (incl_tran I')|now apply set_incl].
  Qed.

  Lemma test_excl order d s : variant d -> orders order -> guarantees s = true -> forall ls, incl ls (d s) ->
    file_realizable (LS order (setLines d s ls)) -> file_unrealizable (LS order (setLines d s ls)) -> False.
  Proof.
    intros V O Hs ls I. apply realizable_exclusive. apply variant_NoDup; auto. apply variant_set; auto.
    eapply incl_tran; [exact I|]; apply V.
  Qed.

  Lemma set_same d s : forall s', setLines d s (d s) s' = d s'.
  Proof. intros s'. unfold setLines. destruct (sec_eqb s' s) eqn:X; auto. apply sec_eqb_eq in X. now subst. Qed.

  Lemma LS_ext order d d' : (forall s, d s = d' s) -> LS order d = LS order d'.
  Proof. intros H. unfold LS. apply flat_map_ext. intros s. now rewrite H. Qed.

  Lemma section_spec order d s : variant d -> orders order -> guarantees s = true ->
    exists out, shrinkSection (fun _ => verdictOfFile ord) order s d = Some (setLines d s out) /\ incl out (d s) /\
      (file_realizable (LS order d) -> out = d s) /\
      (file_unrealizable (LS order d) -> file_unrealizable (LS order (setLines d s out)) /\
         forall A l B, out = (A ++ l :: B)%list -> file_realizable (LS order (setLines d s (A ++ B)%list))).
  Proof.
    intros V O Hs. unfold shrinkSection. fold (test order d s).
    pose proof (test_spec order d s V O Hs) as T. pose proof (test_mono order d s V O Hs) as M.
    pose proof (test_excl order d s V O Hs) as X.
    assert (Same : LS order (setLines d s (d s)) = LS order d) by (apply LS_ext, set_same).
    destruct (shrink_total (test order d s) _ _ (d s) T (d s) []) as (out & Eo & I); [apply incl_refl|].
    exists out. cbn [app] in I. rewrite Eo. split; [reflexivity|]. split; [exact I|]. split.
    - intros R. pose proof (shrink_realizable (test order d s) _ _ (d s) T M X (d s) []) as H. cbn [app] in H.
      rewrite Eo, Same in H. specialize (H (incl_refl _) R). now injection H as ->.
    - intros U. apply (shrink_core (test order d s) _ _ (d s) T M (d s) [] out); auto; cbn [app].
      + apply incl_refl.
      + now rewrite Same.
      + intros A l B H. now destruct A.
  Qed.
End VARIANTS.

(** ** The whole tool *)

Lemma split_linesOf s : forall L A line B, L = (A ++ (s, line) :: B)%list -> linesOf s L = (linesOf s A ++ line :: linesOf s B)%list.
Proof. intros L A line B ->. now rewrite linesOf_app, linesOf_cons_same. Qed.

Section TOOL.
  Variable ord : nat -> bool.
  Variable content : string.
  Variable c : ctx.
  Variable L : items.
  Hypothesis E : initContext ord content = POk c.
  Hypothesis El : layout None (file_lines content) = Some L.
  Hypothesis PF : plain_file L.

  Lemma variant_all d : (forall s, d s = linesOf s L) -> variant L d.
  Proof. intros H. split; intros s; rewrite H; auto. apply incl_refl. Qed.

  Lemma same_realizable d order : (forall s, d s = linesOf s L) -> orders order ->
    (file_realizable L -> file_realizable (LS order d)) /\ (file_unrealizable L -> file_unrealizable (LS order d)).
  Proof.
    intros H O. pose proof (variant_all d H) as V. pose proof (ND ord content c L E El) as N.
    pose proof (variant_NoDup ord content c L E El d order V O) as N'.
    pose proof (variant_less L d order V O) as Less.
    assert (Less' : demands_less (LS order d) L).
    { destruct Less as (L1 & L2 & L3). destruct O as (_ & HA & _). split; [|split]; intros s l Hs.
      - symmetry. now apply L1.
      - rewrite in_LS, H. intros [_ X]. now apply in_linesOf.
      - intros X. rewrite in_LS, H. split; auto. now apply in_linesOf. }
    assert (Sub : forall s line, formulaSection s = true -> In (s, line) (LS order d) -> In (s, line) L).
    { intros s l _. rewrite in_LS, H. intros [_ X]. now apply in_linesOf. }
    split; intros (fs & F & R); destruct (formulas_mono L (LS order d) N' Less fs F Sub) as (fs' & F'); exists fs'; split; auto.
    - eapply (realizable_mono L (LS order d)); eauto.
    - eapply (defeat_mono (LS order d) L); eauto.
  Qed.

  Lemma minimal_core : exists out L', findMinimalCore (fun _ => verdictOfFile ord) content = Some out /\
    layout None (file_lines out) = Some L' /\
    (file_unrealizable L -> core droppable L L') /\
    (file_realizable L -> forall s, linesOf s L' = linesOf s L).
  Proof.
    unfold findMinimalCore. rewrite getlines_spec.
    destruct (read_spec (file_lines content) None noLines L El) as (d0 & R0 & H0). cbn [nameOf] in R0. rewrite R0.
    cbn [noLines app] in H0. 
    pose proof (variant_all d0 H0) as V0.
    destruct (section_spec ord content c L E El PF orderLive d0 SSysLive V0 orders_live eq_refl) as (lv & E1 & I1 & RR1 & UU1).
    rewrite E1. set (d1 := setLines d0 SSysLive lv) in *.
    assert (V1 : variant L d1) by (apply variant_set; auto; rewrite <- H0; exact I1).
    destruct (section_spec ord content c L E El PF orderTrans d1 SSysTrans V1 orders_trans eq_refl) as (tr & E2 & I2 & RR2 & UU2).
    rewrite E2. set (d2 := setLines d1 SSysTrans tr) in *.
    assert (V2 : variant L d2) by (apply variant_set; auto; rewrite <- H0; exact I2).
    exists (textOf (flat_map (fun s => header s :: d2 s ++ [""])%list orderTrans)), (LS orderTrans d2).
    split; [reflexivity|]. split; [apply layout_text; [apply (good_lines content L El); apply V2|now right]|].
    destruct (same_realizable d0 orderLive H0 orders_live) as [SR SU]. split.
    - intros U. destruct (UU1 (SU U)) as [U1 M1].
      assert (U1' : file_unrealizable (LS orderTrans d1)).
      { destruct U1 as (fs & F & D). pose proof U as (fs0 & F0 & _).
        destruct (formulas_mono L (LS orderTrans d1) (variant_NoDup ord content c L E El d1 orderTrans V1 orders_trans)
          (variant_less L d1 orderTrans V1 orders_trans) fs0 F0) as (fs1 & F1).
        { intros s l _. rewrite in_LS. intros [_ X]. apply in_linesOf. now apply V1. }
        eapply (variant_unrealizable ord content c L E El d1 d1 orderTrans orderLive); eauto using orders_live, orders_trans.
        - intros s. apply incl_refl.
        - exists fs. auto. }
      destruct (UU2 U1') as [U2 M2]. split; [|split; [|split]].
      + intros s Hs. rewrite linesOf_orders by apply orders_trans. unfold d2, d1, setLines. destruct s; try discriminate Hs; cbn; apply H0.
      + intros s l. rewrite in_LS. intros [_ X]. apply in_linesOf. now apply V2.
      + exact U2.
      + intros A s line B Eq Hs.
        assert (Real : exists dx order, variant L dx /\ orders order /\ file_realizable (LS order dx) /\
           forall s' l, In (s', l) (A ++ B)%list -> In l (dx s')).
        { pose proof (split_linesOf s _ A line B Eq) as Sp. rewrite linesOf_orders in Sp by apply orders_trans.
          assert (InAB : forall s' l, In (s', l) (A ++ B)%list -> In l (d2 s') /\ (s' = s -> In l (linesOf s A ++ linesOf s B)%list)).
          { intros s' l X. split.
            - assert (Y : In (s', l) (LS orderTrans d2)) by (rewrite Eq; apply in_app_iff in X; apply in_app_iff; cbn; tauto).
              now apply in_LS in Y.
            - intros ->. rewrite <- linesOf_app. now apply in_linesOf. }
          destruct s; try discriminate Hs.
          - exists (setLines d1 SSysTrans (linesOf SSysTrans A ++ linesOf SSysTrans B)%list), orderTrans.
            assert (Etr : tr = (linesOf SSysTrans A ++ line :: linesOf SSysTrans B)%list) by exact Sp.
            split; [|split; [apply orders_trans|split; [now apply (M2 _ line)|]]].
            + apply variant_set; auto. rewrite <- H0. apply incl_tran with tr; [|exact I2].
              rewrite Etr. intros x X. rewrite in_app_iff in *. cbn. tauto.
            + intros s' l X. apply InAB in X. destruct X as [X1 X2]. unfold d2, setLines in *.
              destruct (sec_eqb s' SSysTrans) eqn:Z; auto. apply sec_eqb_eq in Z. auto.
          - exists (setLines d0 SSysLive (linesOf SSysLive A ++ linesOf SSysLive B)%list), orderLive.
            assert (Elv : lv = (linesOf SSysLive A ++ line :: linesOf SSysLive B)%list) by exact Sp.
            split; [|split; [apply orders_live|split; [now apply (M1 _ line)|]]].
            + apply variant_set; auto. rewrite <- H0. apply incl_tran with lv; [|exact I1].
              rewrite Elv. intros x X. rewrite in_app_iff in *. cbn. tauto.
            + intros s' l X. apply InAB in X. destruct X as [X1 X2]. unfold setLines in *.
              destruct (sec_eqb s' SSysLive) eqn:Z; [apply sec_eqb_eq in Z; auto|].
              unfold d2, d1, setLines in X1. rewrite Z in X1. destruct (sec_eqb s' SSysTrans) eqn:Z'; auto.
              apply sec_eqb_eq in Z'. subst s'. now apply I2. }
        destruct Real as (dx & order & Vx & Ox & (fs & F & R) & Hin).
        assert (Fs : formulaSection s = true) by now destruct s.
        assert (Dec : decls (A ++ B)%list = decls (LS orderTrans d2)).
        { rewrite Eq. unfold decls. rewrite !filter_app. cbn [filter fst]. rewrite Fs. reflexivity. }
        assert (N : NoDup (declared (A ++ B)%list)).
        { rewrite declared_decls, Dec, <- declared_decls. now apply (variant_NoDup ord content c L E El); [|apply orders_trans]. }
        assert (Nx : NoDup (declared (LS order dx))) by (now apply (variant_NoDup ord content c L E El)).
        assert (InL : forall s' l, In (s', l) (A ++ B)%list -> In (s', l) (LS order dx)).
        { intros s' l X. rewrite in_LS. destruct Ox as (_ & HA & _). auto. }
        assert (Less : demands_less (LS order dx) (A ++ B)%list).
        { assert (Back : forall s' l, guarantees s' = false -> In (s', l) (LS order dx) -> In (s', l) (A ++ B)%list).
          { intros s' l Hs' X. rewrite in_LS in X. destruct X as [_ X]. destruct Vx as [Vx _]. rewrite (Vx _ Hs') in X.
            assert (Y : In (s', l) (LS orderTrans d2)).
            { rewrite in_LS. split; [apply orders_trans|]. destruct V2 as [V2 _]. now rewrite (V2 _ Hs'). }
            rewrite Eq in Y. apply in_app_iff in Y. apply in_app_iff. destruct Y as [Y|[Y|Y]]; auto.
            injection Y as -> ->. now destruct s'. }
          split; [|split]; intros s' l Hs'.
          - split; [apply Back; now destruct s'|apply InL].
          - apply Back. now destruct s'.
          - apply InL. }
        destruct (formulas_mono (LS order dx) (A ++ B)%list N Less fs F) as (fs' & F').
        { intros s' l _. apply InL. }
        exists fs'. split; auto. eapply (realizable_mono (LS order dx) (A ++ B)%list); eauto.
    - intros R. assert (X1 : lv = d0 SSysLive) by auto.
      assert (Same1 : forall s, d1 s = linesOf s L).
      { intros s. unfold d1. rewrite X1, set_same. apply H0. }
      assert (X2 : tr = d1 SSysTrans).
      { apply RR2. destruct (same_realizable d1 orderTrans Same1 orders_trans) as [SR2 _]. auto. }
      intros s. rewrite linesOf_orders by apply orders_trans. unfold d2. rewrite X2, set_same. apply Same1.
  Qed.
End TOOL.
