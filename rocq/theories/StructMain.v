(** * Proofs: translated structured slugs files *)

From Coq Require Import String Ascii List Bool Arith NArith ZArith Lia.
From Coq Require Import DecimalString.
From Verif Require Import FormulaSpec Parser Spec FileSpec Execute ParserProofs FileProofs PropsParser OutputProofs Explicit SymbolicProofs EstimatorText FastSlowFile Sem MonoProofs MinCoreProofs AigMain
  StructuredSpec Structured StructuredProofs StructuredTrans StructuredAccept PropsStructured StructGrammar StructParse StructReadProofs StructFileSpec StructFile StructGameProofs StructFileProofs StructDeclProofs StructLineProofs StructTokenProofs StructConvProofs.
Import ListNotations.
Local Open Scope list_scope.

(** ** Layout of the printed lines *)

Definition itemsOf (s : section) (ls : list string) : items := map (fun l => (s, strip l)) (filter contentS ls).
Lemma layout_ok s ls : forall rest, Forall lineOK ls -> layout (Some s) (ls ++ rest) =
  match layout (Some s) rest with Some L => Some (itemsOf s ls ++ L) | None => None end.
Proof.
  unfold itemsOf. induction ls as [|l ls IH]; intros rest F; cbn [app filter map]; [now destruct (layout _ rest)|].
  inversion F as [|? ? [N1 N2] F']; subst. cbn [layout]. unfold contentS at 1, content. destruct (strip l) as [|a r] eqn:S; [apply IH; auto|].
  cbn [String.eqb firstIs orb] in *. rewrite N2. destruct (a =? "#")%char; cbn [negb]; [apply IH; auto|]. rewrite IH by auto.
  destruct (layout (Some s) rest); [|reflexivity]. cbn [map app]. now rewrite S.
Qed.
Lemma layout_header cur s ls : layout cur (header s :: ls) = layout (Some s) ls.
Proof. destruct s; reflexivity. Qed.
Lemma layout_blank cur ls : layout cur (""%string :: ls) = layout cur ls.
Proof. reflexivity. Qed.
Lemma layout_sections secs : forall cur, Forall (fun p => Forall lineOK (snd p)) secs ->
  layout cur (flat_map (fun p => printSection (header (fst p)) (snd p)) secs) = Some (flat_map (fun p => itemsOf (fst p) (snd p)) secs).
Proof.
  induction secs as [|[s ls] secs IH]; intros cur F; [reflexivity|]. inversion F as [|? ? F1 F2]; subst. cbn [flat_map fst snd] in *.
  unfold printSection at 1. destruct ls as [|l ls]; [apply IH; auto|]. change ((header s :: (l :: ls) ++ [""%string]) ++ ?r) with (header s :: ((l :: ls) ++ [""%string]) ++ r).
  rewrite layout_header, <- app_assoc, layout_ok by auto. cbn [app]. rewrite layout_blank, IH by auto. reflexivity.
Qed.
Lemma linesOf_items s s' ls : linesOf s (itemsOf s' ls) = if sec_eqb s' s then map strip (filter contentS ls) else [].
Proof.
  unfold linesOf, itemsOf. induction (filter contentS ls) as [|l ls' IH]; cbn [map filter fst]; [now destruct (sec_eqb s' s)|].
  destruct (sec_eqb s' s); cbn [map snd]; now rewrite IH.
Qed.

(** ** Small facts *)

Lemma F2_unique {A B} (R : A -> B -> Prop) : (forall a b b', R a b -> R a b' -> b = b') -> forall l x y, Forall2 R l x -> Forall2 R l y -> x = y.
Proof. intros U. induction l as [|a l IH]; intros x y H1 H2; inversion H1; inversion H2; subst; auto. f_equal; eauto. Qed.
Lemma F2_filter {A} (P : A -> A -> Prop) (c : A -> bool) l l' : Forall2 (fun a b => P a b /\ c b = c a) l l' -> Forall2 P (filter c l) (filter c l').
Proof. induction 1 as [|a b l l' [H1 H2] H IH]; [constructor|]. cbn [filter]. rewrite H2. destruct (c a); auto. Qed.
Lemma section_choice {A} (d : A) (P : section -> A -> Prop) : (forall s, formulaSection s = true -> exists x, P s x) -> exists f, forall s, formulaSection s = true -> P s (f s).
Proof.
  intros H. destruct (H SEnvInit eq_refl) as (a & Ha), (H SSysInit eq_refl) as (b & Hb), (H SEnvTrans eq_refl) as (c & Hc), (H SSysTrans eq_refl) as (x & Hx), (H SEnvLive eq_refl) as (y & Hy), (H SSysLive eq_refl) as (z & Hz).
  exists (fun s => match s with SEnvInit => a | SSysInit => b | SEnvTrans => c | SSysTrans => x | SEnvLive => y | SSysLive => z | _ => d end).
  intros []; auto; discriminate.
Qed.
Lemma convertLines_F2 aps D ls : forall out, convertLines aps D ls = Ret out -> Forall2 (fun a b => convertLine aps D a = Ret b) ls out.
Proof.
  induction ls as [|a ls IH]; intros out E; cbn [convertLines] in E; [injection E as <-; constructor|].
  destruct (convertLine aps D a) as [b| |] eqn:E1; cbn [pybind] in E; try discriminate. destruct (convertLines aps D ls) as [bs| |] eqn:E2; cbn [pybind] in E; try discriminate.
  injection E as <-. constructor; auto.
Qed.
Definition converted (st : convState) (k : string) : list string := match convertLines (booleanAPs st) (numberAPLimits st) (propertyLines st k) with Ret ls => ls | _ => [] end.
Lemma convertSections_spec st keys : forall ls, convertSections st keys = Ret ls ->
  ls = flat_map (fun k => printSection k (converted st k)) keys /\ forall k, In k keys -> convertLines (booleanAPs st) (numberAPLimits st) (propertyLines st k) = Ret (converted st k).
Proof.
  induction keys as [|k keys IH]; intros ls E; cbn [convertSections] in E; [injection E as <-; split; [reflexivity|intros k []]|].
  destruct (convertLines (booleanAPs st) (numberAPLimits st) (propertyLines st k)) as [l1| |] eqn:E1; cbn [pybind] in E; try discriminate.
  destruct (convertSections st keys) as [rest| |] eqn:E2; cbn [pybind] in E; try discriminate. apply (f_equal (fun r => match r with Ret q => q | _ => [] end)) in E. cbv beta iota in E. subst ls.
  destruct (IH rest eq_refl) as [-> IH2]. assert (X : converted st k = l1) by (unfold converted; now rewrite E1).
  cbn [flat_map]. rewrite X. split; [reflexivity|]. intros k' [<-|H]; [now rewrite X|auto].
Qed.
Lemma unlines_concat ls : String.concat "" (map (fun l => l ++ String "010" "")%string ls) = unlines ls.
Proof. reflexivity. Qed.
Lemma unlines_length l ls : In l ls -> String.length l <= String.length (unlines ls).
Proof.
  assert (LA : forall a b, String.length (a ++ b) = String.length a + String.length b) by (induction a as [|x a IH]; intros b; cbn; auto).
  induction ls as [|x ls IH]; intros []; subst; unfold unlines in *; cbn [map]; rewrite sconcat_cons, !LA; [lia|]. specialize (IH H). lia.
Qed.
Lemma intValue_ext D D' names e : (forall x, limitsOf D x = limitsOf D' x) -> forall p x, intValue D names e p x = intValue D' names e p x.
Proof. intros H p x. unfold intValue. now rewrite H. Qed.

(** ** The limits in the sections *)

Definition inNexts (th : bool) (s : section) : list bool := match s with SEnvInit => [false] | SEnvTrans => if th then [false; true] else [true] | _ => [] end.
Definition outNexts (th : bool) (s : section) : list bool := match s with SSysInit => [false] | SSysTrans => if th then [false; true] else [true] | _ => [] end.
Lemma limKey_in th s d : formulaSection s = true -> limKey th "[INPUT]" (header s) d = flat_map (fun n => limOne n d) (inNexts th s).
Proof.
  intros _. destruct d as [x|x mn mx]; [destruct s, th; reflexivity|]. unfold limKey, limitLines, limOne.
  destruct (2 ^ Z.of_nat (nofBits mn mx) =? mx - mn + 1)%Z; [destruct s, th; reflexivity|]. destruct s, th; cbn [inNexts outNexts flat_map app]; rewrite ?prime_false; reflexivity.
Qed.
Lemma limKey_out th s d : formulaSection s = true -> limKey th "[OUTPUT]" (header s) d = flat_map (fun n => limOne n d) (outNexts th s).
Proof.
  intros _. destruct d as [x|x mn mx]; [destruct s, th; reflexivity|]. unfold limKey, limitLines, limOne.
  destruct (2 ^ Z.of_nat (nofBits mn mx) =? mx - mn + 1)%Z; [destruct s, th; reflexivity|]. destruct s, th; cbn [inNexts outNexts flat_map app]; rewrite ?prime_false; reflexivity.
Qed.

(** ** Declarations of the printed file *)
Lemma declared_app a b : declared (a ++ b) = declared a ++ declared b.
Proof. unfold declared. apply flat_map_app. Qed.
Lemma outputs_app a b : outputs (a ++ b) = outputs a ++ outputs b.
Proof. unfold outputs. apply flat_map_app. Qed.
Lemma declared_items s ls : declared (itemsOf s ls) = if formulaSection s then [] else flat_map (fun w => [w; (w ++ "'")%string]) (map strip (filter contentS ls)).
Proof. unfold declared, itemsOf. induction (filter contentS ls) as [|l l' IH]; cbn [map flat_map fst snd]; [now destruct (formulaSection s)|]. rewrite IH. destruct s; reflexivity. Qed.
Lemma outputs_items s ls : outputs (itemsOf s ls) = if formulaSection s then [] else repeat (match s with SOutput => true | _ => false end) (length (filter contentS ls)).
Proof. unfold outputs, itemsOf. induction (filter contentS ls) as [|l l' IH]; cbn [map flat_map fst snd length repeat]; [now destruct (formulaSection s)|]. rewrite IH. destruct s; reflexivity. Qed.

(** ** Conversion *)

Section OUT.
  Variables ins outs : list declaration.
  Let ds := ins ++ outs.
  Let aps := flat_map apWords ds.
  Let D := rev (integers ds).
  Hypothesis HG : Forall good ds.
  Hypothesis HI : NoDup (map fst (integers ds)).

  Lemma D_decl x mn mx : limitsOf D x = Some (mn, mx) -> In (DInt x mn mx) ds.
  Proof. unfold D, ds in *. rewrite limits_rev by exact HI. intros E. pose proof (limits_decl ins outs HI x) as H. now rewrite E in H. Qed.

  (** Lines with content before the conversion. *)
  Definition source (a : string) : Prop :=
    (tidy a /\ content a = true /\ blanksOnly a /\ plain_words (words a)) \/ exists next d, In d ds /\ In a (limOne next d).

  Lemma sig_start w i : sigVar ins outs w i -> exists a r, w = String a r /\ isWordStart a = true.
  Proof. intros [_ H]. exact H. Qed.

  Lemma conv_elem a b : lineOK a -> (contentS a = true -> source a) -> convertLine aps D a = Ret b -> (N.of_nat (String.length b) < maxNumber)%N ->
    lineOK b /\ contentS b = contentS a /\ (contentS a = true -> plain_words (words b)).
  Proof.
    intros OK SRC E LEN. destruct (contentS a) eqn:C.
    - destruct (SRC eq_refl) as [(T & C' & B & P)|(next & d & Hd & Hl)].
      + destruct (convert_file ins outs HG D a b T C' B E) as [->|(_ & f & HR & HT)]; [auto|].
        destruct (translate_gram ins outs HG D D_decl a f b HR HT LEN) as (g & Hg & _). destruct (gram_line _ _ _ _ _ _ Hg sig_start) as [G1 G2].
        split; [split; [|exact G2]|split; [exact G1|intros _]].
        * eapply translate_noNl; eauto. now apply (reads_tokens _ _ _ HR).
        * apply plainB_spec. apply (proj1 (gram_plainB _ _ _) _ _ _ Hg).
      + pose proof (convert_limit ins outs HG D next d a b Hd Hl E) as ->. split; auto. split; auto. intros _.
        destruct d as [x|x mn mx]; [destruct Hl|].
        assert (E1 : limOne next (DInt x mn mx) = [a]) by (unfold limOne in *; destruct (_ =? _)%Z; [destruct Hl|destruct Hl as [<-|[]]; reflexivity]).
        destruct (limit_means ins outs HG next x mn mx a Hd E1) as (g & Hg & _). apply plainB_spec. apply (proj1 (gram_plainB _ _ _) _ _ _ Hg).
    - assert (b = a) as ->; [|split; [auto|split; [auto|discriminate]]]. unfold convertLine in E. unfold contentS, content in C. rewrite trim_spec in E. apply negb_false_iff in C. rewrite C in E. now injection E.
  Qed.
End OUT.

Lemma declareLines_nil th k st : declareLines th k [] st = Ret st.
Proof. reflexivity. Qed.

(** The lines of a formula section in the file and in its translation. *)
Definition limitsIn (th : bool) (ins outs : list declaration) (s : section) : list string :=
  flat_map (fun d => flat_map (fun n => limOne n d) (inNexts th s)) ins ++ flat_map (fun d => flat_map (fun n => limOne n d) (outNexts th s)) outs.

Lemma conversion_full th text out L ins outs :
  performConversion th text = Ret out ->
  layout None (file_lines text) = Some L ->
  Forall2 declares (linesOf SInput L) ins -> Forall2 declares (linesOf SOutput L) outs ->
  (forall x mn mx, In (DInt x mn mx) (ins ++ outs) -> isWordToken x = true) ->
  NoDup (map fst (integers (ins ++ outs))) ->
  (forall s line, formulaSection s = true -> In (s, line) L -> blanksOnly line) ->
  plain_file L ->
  (N.of_nat (String.length out) < maxNumber)%N ->
  Forall good (ins ++ outs) /\
  exists Lout B, (exists A C, Lout = A ++ C /\ Forall (fun p => formulaSection (fst p) = false) A /\ Forall (fun p => formulaSection (fst p) = true) C) /\ layout None (file_lines out) = Some Lout /\ declared Lout = allNames ins outs /\
    outputs Lout = repeat false (total ins) ++ repeat true (total outs) /\ plain_file Lout /\
    forall s, formulaSection s = true -> linesOf s Lout = map strip (B s) /\
      Forall2 (fun a b => convertLine (flat_map apWords (ins ++ outs)) (rev (integers (ins ++ outs))) a = Ret b /\ (N.of_nat (String.length b) < maxNumber)%N)
        (linesOf s L ++ limitsIn th ins outs s) (B s) /\ Forall tidy (linesOf s L) /\ Forall (fun a => content a = true) (linesOf s L).
Proof.
  intros HP HL HI HO HW HN HB HPl HLen. unfold performConversion in HP. rewrite getlines_spec in HP.
  destruct (read_spec' (file_lines text) None emptyDict L (file_lines_noNl _) HL) as (d & add & E1 & E2 & T & K & U). cbn [nameOf] in E1. rewrite E1 in HP. cbn [pybind] in HP.
  assert (Ed : forall k, d k = add k) by (intros k; rewrite E2; reflexivity).
  assert (KS : forall s, filter content (d (header s)) = linesOf s L) by (intros s; rewrite Ed, K; apply keyLines_header).
  unfold ioKeys in HP. cbn [declareAll] in HP. set (st0 := mkConv emptyDict [] [] d) in *.
  assert (WI : forall s ds, Forall2 declares (linesOf s L) ds -> (forall x mn mx, In (DInt x mn mx) ds -> isWordToken x = true) ->
    forall line x mn mx, In line (filter content (d (header s))) -> declares line (DInt x mn mx) -> isWordToken x = true).
  { intros s l F W line x mn mx Hl Hd. rewrite KS in Hl. destruct (Forall2_in_l _ _ _ _ F Hl) as (d0 & Hd0 & H0). apply (W x mn mx). now rewrite (declares_unique _ _ _ Hd H0). }
  destruct (declareLines th "[INPUT]" (d "[INPUT]"%string) st0) as [st1| |] eqn:D1; cbn [pybind] in HP; try discriminate.
  destruct (declareLines th "[OUTPUT]" (d "[OUTPUT]"%string) st1) as [st2| |] eqn:D2; cbn [pybind] in HP; try discriminate.
  rewrite !Ed in HP.
  assert (NO : forall k, ~ In k (map header sections) -> declareLines th k (add k) st2 = Ret st2) by (intros k Hk; rewrite U by exact Hk; reflexivity).
  do 3 (rewrite NO in HP by (cbn; intuition discriminate); cbn [pybind] in HP). clear NO.
  apply declareLines_spec in D1; [|rewrite Ed; apply T|apply (WI SInput ins HI); intros; eapply HW; apply in_app_iff; eauto].
  apply declareLines_spec in D2; [|rewrite Ed; apply T|apply (WI SOutput outs HO); intros; eapply HW; apply in_app_iff; eauto].
  destruct D1 as (io1 & p1 & ds1 & A1 & A2 & A3 & A4 & A5 & A6 & A7 & A8 & A9 & A10).
  destruct D2 as (io2 & p2 & ds2 & B1 & B2 & B3 & B4 & B5 & B6 & B7 & B8 & B9 & B10).
  assert (ds1 = ins) as ->. { apply (F2_unique declares declares_unique (linesOf SInput L)); auto. rewrite <- KS. exact A9. }
  assert (ds2 = outs) as ->. { apply (F2_unique declares declares_unique (linesOf SOutput L)); auto. rewrite <- KS. exact B9. }
  assert (HG : Forall good (ins ++ outs)) by (apply Forall_app; auto). split; [exact HG|].
  assert (EA : booleanAPs st2 = flat_map apWords (ins ++ outs)) by (rewrite B4, A4, flat_map_app; reflexivity).
  assert (EN : numberAPLimits st2 = rev (integers (ins ++ outs))) by (rewrite B5, A5, integers_app, rev_app_distr; cbn; now rewrite app_nil_r).
  assert (IOk : forall k, translatedIOLines st2 k = if String.eqb k "[INPUT]" then io1 else if String.eqb k "[OUTPUT]" then io2 else []).
  { intros k. rewrite B1, A1. cbn. destruct (String.eqb_spec k "[OUTPUT]") as [->|]; [reflexivity|]. now destruct (String.eqb k "[INPUT]"). }
  assert (PR : forall k, propertyLines st2 k = add k ++ p1 k ++ p2 k) by (intros k; rewrite B6, A6, <- app_assoc; cbn; now rewrite Ed).
  destruct (convertSections st2 propertyKeys) as [ls| |] eqn:CS; cbn [pybind] in HP; try discriminate. destruct (convertSections_spec _ _ _ CS) as [-> CK].
  apply (f_equal (fun r => match r with Ret q => q | _ => ""%string end)) in HP. cbv beta iota in HP.
  set (secs := [(SInput, io1); (SOutput, io2); (SEnvTrans, converted st2 "[ENV_TRANS]"); (SEnvInit, converted st2 "[ENV_INIT]"); (SSysTrans, converted st2 "[SYS_TRANS]"); (SSysInit, converted st2 "[SYS_INIT]"); (SEnvLive, converted st2 "[ENV_LIVENESS]"); (SSysLive, converted st2 "[SYS_LIVENESS]")]).
  assert (OUT : out = unlines (flat_map (fun p => printSection (header (fst p)) (snd p)) secs)).
  { rewrite <- HP. etransitivity; [exact (unlines_concat _)|]. f_equal. unfold propertyKeys, secs. cbn [flat_map fst snd header]. rewrite !IOk. cbn [String.eqb Ascii.eqb Bool.eqb printSection app]. rewrite <- !app_assoc. reflexivity. }
  assert (CL : forall s, formulaSection s = true -> Forall2 (fun a b => convertLine (flat_map apWords (ins ++ outs)) (rev (integers (ins ++ outs))) a = Ret b)
     (add (header s) ++ p1 (header s) ++ p2 (header s)) (converted st2 (header s))).
  { intros s Hs. apply convertLines_F2. rewrite <- EA, <- EN, <- PR. apply CK. destruct s; try discriminate; cbn; tauto. }
  assert (LB : forall s b, formulaSection s = true -> In b (converted st2 (header s)) -> (N.of_nat (String.length b) < maxNumber)%N).
  { intros s b Hs Hb. eapply N.le_lt_trans; [|exact HLen]. assert (String.length b <= String.length out); [|lia]. rewrite OUT. apply unlines_length. apply in_flat_map.
    exists (s, converted st2 (header s)). split; [destruct s; try discriminate; unfold secs; cbn; tauto|]. cbn [fst snd]. unfold printSection. destruct (converted st2 (header s)); [destruct Hb|]. right. apply in_app_iff. now left. }
  assert (FC : forall s, filter contentS (add (header s)) = linesOf s L).
  { intros s. rewrite <- KS, Ed. specialize (T (header s)). induction T as [|a l (T1 & _) _ IH]; [reflexivity|]. cbn [filter]. unfold contentS at 1. rewrite T1, IH. reflexivity. }
  assert (LIM : forall s, formulaSection s = true -> filter contentS (add (header s) ++ p1 (header s) ++ p2 (header s)) = linesOf s L ++ limitsIn th ins outs s).
  { intros s Hs. rewrite !filter_app, FC, A8, B8. unfold limitsIn. f_equal. f_equal; apply flat_map_ext; intros d0; [now apply limKey_in|now apply limKey_out]. }
  assert (TC : forall s, Forall tidy (linesOf s L) /\ Forall (fun a => content a = true) (linesOf s L)).
  { intros s. rewrite <- KS, Ed. split; apply Forall_forall; intros a Ha; apply filter_In in Ha; [|tauto]. specialize (T (header s)). rewrite Forall_forall in T. apply T. tauto. }
  assert (SRC : forall s a, formulaSection s = true -> In a (linesOf s L ++ limitsIn th ins outs s) -> source ins outs a).
  { intros s a Hs Ha. apply in_app_or in Ha. destruct Ha as [Ha|Ha].
    - left. destruct (TC s) as [T1 T2]. rewrite Forall_forall in T1, T2. apply T1 in Ha as X1. apply T2 in Ha as X2. apply in_linesOf in Ha. repeat (split; [now eauto|]). now apply (HPl s a Hs).
    - right. unfold limitsIn in Ha. apply in_app_or in Ha. destruct Ha as [Ha|Ha]; apply in_flat_map in Ha; destruct Ha as (d0 & Hd0 & Ha); apply in_flat_map in Ha; destruct Ha as (n & _ & Ha); exists n, d0; (split; [apply in_app_iff; auto|exact Ha]). }
  assert (AOK : forall s, Forall lineOK (add (header s) ++ p1 (header s) ++ p2 (header s))).
  { intros s. rewrite !Forall_app. split; [|auto]. eapply Forall_impl; [|apply (T (header s))]. intros a (T1 & T2 & T3). split; [exact T3|now rewrite T1]. }
  assert (ELEM : forall s, formulaSection s = true -> Forall2 (fun a b => (convertLine (flat_map apWords (ins ++ outs)) (rev (integers (ins ++ outs))) a = Ret b /\ (N.of_nat (String.length b) < maxNumber)%N /\ lineOK b /\ (contentS b = true -> plain_words (words b))) /\ contentS b = contentS a)
     (add (header s) ++ p1 (header s) ++ p2 (header s)) (converted st2 (header s))).
  { intros s Hs. assert (X : forall a b, In a (add (header s) ++ p1 (header s) ++ p2 (header s)) -> In b (converted st2 (header s)) -> convertLine (flat_map apWords (ins ++ outs)) (rev (integers (ins ++ outs))) a = Ret b ->
      (convertLine (flat_map apWords (ins ++ outs)) (rev (integers (ins ++ outs))) a = Ret b /\ (N.of_nat (String.length b) < maxNumber)%N /\ lineOK b /\ (contentS b = true -> plain_words (words b))) /\ contentS b = contentS a).
    { intros a b Ha Hb E. pose proof (LB s b Hs Hb) as LBb. specialize (AOK s). rewrite Forall_forall in AOK. specialize (AOK a Ha).
      destruct (conv_elem ins outs HG HN a b AOK) as (X1 & X2 & X3); auto. { intros C. apply (SRC s); auto. rewrite <- LIM by exact Hs. now apply filter_In. }
      split; [|exact X2]. split; [exact E|]. split; [exact LBb|]. split; [exact X1|]. rewrite X2. exact X3. }
    specialize (CL s Hs). revert X CL. generalize (add (header s) ++ p1 (header s) ++ p2 (header s)) (converted st2 (header s)). intros l l' X F.
    induction F as [|a b l l' H F IH]; constructor; [apply X; cbn; auto|]. apply IH. intros; apply X; cbn; auto. }
  assert (COK : forall s, formulaSection s = true -> Forall lineOK (converted st2 (header s))).
  { intros s Hs. apply Forall_forall. intros b Hb. destruct (Forall2_in_r _ _ _ _ (ELEM s Hs) Hb) as (a & _ & (_ & _ & H & _) & _). exact H. }
  assert (SOK : Forall (fun p => Forall lineOK (snd p)) secs) by (unfold secs; repeat apply Forall_cons; cbn [snd]; auto; first [apply (COK SEnvTrans eq_refl)|apply (COK SEnvInit eq_refl)|apply (COK SSysTrans eq_refl)|apply (COK SSysInit eq_refl)|apply (COK SEnvLive eq_refl)|apply (COK SSysLive eq_refl)]).
  set (Lout := flat_map (fun p => itemsOf (fst p) (snd p)) secs).
  exists Lout, (fun s => filter contentS (converted st2 (header s))).
  assert (ITEM : forall s ls b, formulaSection s = b -> Forall (fun p : section * string => formulaSection (fst p) = b) (itemsOf s ls)).
  { intros s ls b Hb. apply Forall_forall. intros q Hq. apply in_map_iff in Hq. destruct Hq as (l & <- & _). exact Hb. }
  split. { eexists _, _. split; [unfold Lout, secs; cbn [flat_map fst snd]; rewrite app_assoc; reflexivity|]. split; repeat (apply Forall_app; split); try (now apply ITEM); constructor. }
  assert (LO : forall s, formulaSection s = true -> linesOf s Lout = map strip (filter contentS (converted st2 (header s)))).
  { intros s Hs. unfold Lout, secs. cbn [flat_map fst snd]. rewrite !linesOf_app, !linesOf_items. destruct s; try discriminate; cbn [sec_eqb app header]; rewrite ?app_nil_r; reflexivity. }
  split. { rewrite OUT, file_lines_unlines; [now apply layout_sections|]. apply Forall_forall. intros l Hl. apply in_flat_map in Hl. destruct Hl as ([s l'] & Hp & Hl). cbn [fst snd] in Hl.
    rewrite Forall_forall in SOK. specialize (SOK _ Hp). cbn [snd] in SOK. unfold printSection in Hl. destruct l' as [|z l']; [destruct Hl|]. destruct Hl as [<-|Hl]; [apply noNl_lit; destruct s; reflexivity|].
    apply in_app_or in Hl. destruct Hl as [Hl|[<-|[]]]; [|apply noNl_lit; reflexivity]. rewrite Forall_forall in SOK. now apply SOK. }
  split. { unfold Lout, secs. cbn [flat_map fst snd]. rewrite !declared_app, !declared_items. cbn [formulaSection app]. rewrite !app_nil_r, A3, B3. unfold allNames. rewrite flat_map_app, flat_map_app. reflexivity. }
  split. { unfold Lout, secs. cbn [flat_map fst snd]. rewrite !outputs_app, !outputs_items. cbn [formulaSection app]. rewrite !app_nil_r. rewrite <- (map_length strip (filter contentS io1)), <- (map_length strip (filter contentS io2)), A3, B3, !names_total. reflexivity. }
  split. { intros s line Hs Hl. apply in_linesOf in Hl. rewrite LO in Hl by exact Hs. apply in_map_iff in Hl. destruct Hl as (b & <- & Hb). apply filter_In in Hb. destruct Hb as [Hb Cb]. rewrite words_strip.
    destruct (Forall2_in_r _ _ _ _ (ELEM s Hs) Hb) as (a & _ & (_ & _ & _ & H) & _). auto. }
  intros s Hs. split; [now apply LO|]. split; [|apply TC]. rewrite <- LIM by exact Hs. apply F2_filter. specialize (ELEM s Hs). revert ELEM. generalize (add (header s) ++ p1 (header s) ++ p2 (header s)) (converted st2 (header s)).
  induction 1 as [|a b l l' H F IH]; constructor; auto. tauto.
Qed.
Lemma conversion_file th text out L ins outs :
  performConversion th text = Ret out ->
  layout None (file_lines text) = Some L ->
  Forall2 declares (linesOf SInput L) ins -> Forall2 declares (linesOf SOutput L) outs ->
  (forall x mn mx, In (DInt x mn mx) (ins ++ outs) -> isWordToken x = true) ->
  NoDup (map fst (integers (ins ++ outs))) ->
  (forall s line, formulaSection s = true -> In (s, line) L -> blanksOnly line) ->
  plain_file L ->
  (N.of_nat (String.length out) < maxNumber)%N ->
  Forall good (ins ++ outs) /\
  exists Lout B, layout None (file_lines out) = Some Lout /\ declared Lout = allNames ins outs /\
    outputs Lout = repeat false (total ins) ++ repeat true (total outs) /\ plain_file Lout /\
    forall s, formulaSection s = true -> linesOf s Lout = map strip (B s) /\
      Forall2 (fun a b => convertLine (flat_map apWords (ins ++ outs)) (rev (integers (ins ++ outs))) a = Ret b /\ (N.of_nat (String.length b) < maxNumber)%N)
        (linesOf s L ++ limitsIn th ins outs s) (B s) /\ Forall tidy (linesOf s L) /\ Forall (fun a => content a = true) (linesOf s L).
Proof.
  intros HP HL HI HO HW HN HB HPl HLen. destruct (conversion_full th text out L ins outs HP HL HI HO HW HN HB HPl HLen) as (HG & Lout & B & _ & H). split; [exact HG|]. exists Lout, B. exact H.
Qed.
