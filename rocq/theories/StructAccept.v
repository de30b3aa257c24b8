(** * Proofs: which structured slugs files are translated *)

From Coq Require Import String Ascii List Bool Arith NArith ZArith Lia.
From Verif Require Import FormulaSpec Parser Spec FileSpec ParserProofs FileProofs OutputProofs EstimatorText FastSlowFile SymbolicProofs MinCoreProofs AigMain MonoProofs StructuredSpec Structured StructuredProofs StructuredAccept StructuredTrans PropsStructured StructGrammar StructParse StructReadProofs PropsStructParse
  StructFileSpec StructFile StructGameProofs StructFileProofs StructDeclProofs StructLineProofs StructTokenProofs StructConvProofs StructMain DecoderProofs StuckProofs AigFile GraphProofs StructAcceptSpec.
Import ListNotations.
Local Open Scope string_scope.
Local Open Scope list_scope.

(** ** Declarations *)
Lemma token_strip x : isWordToken x = true -> strip x = x.
Proof. intros H. apply strip_noWs. now apply token_noWs. Qed.
Lemma token_lacks x c : isWordToken x = true -> isWordStart c = false -> isDigit c = false -> lacks c x.
Proof.
  assert (K : forall a, isWordStart a || isDigit a = true -> isWordStart c = false -> isDigit c = false -> negb (Ascii.eqb a c) = true).
  { intros a H C1 C2. destruct (Ascii.eqb_spec a c) as [->|]; [|reflexivity]. rewrite C1, C2 in H. discriminate. }
  destruct x as [|a x]; [discriminate|]. cbn [isWordToken]. intros H C1 C2. apply andb_prop in H. destruct H as [H1 H2]. unfold lacks. cbn [allChars]. rewrite (K a) by (auto; now rewrite H1). cbn [andb].
  eapply allChars_impl; [|exact H2]. intros b Hb. now apply K.
Qed.
Lemma lacks_cons c a s : lacks c (String a s) -> a <> c /\ lacks c s.
Proof. unfold lacks. cbn [allChars]. intros H. apply andb_prop in H. destruct H as [H1 H2]. split; [|exact H2]. intros ->. rewrite Ascii.eqb_refl in H1. discriminate. Qed.
Lemma split_dots a : forall b, lacks "." a -> lacks "." b -> splitDots3 (a ++ "..." ++ b) = [a; b].
Proof.
  assert (L : forall b, lacks "." b -> splitDots3 b = [b]).
  { induction b as [|c b IH]; [reflexivity|]. intros H. apply lacks_cons in H. destruct H as [Hc Hb]. specialize (IH Hb).
    destruct (splitDots3_cons c b) as [E|E]; [now rewrite E, IH|]. destruct E as (r & E & _). exfalso. apply Hc. cbn in E. congruence. }
  intros b. induction a as [|c a IH]; intros Ha Hb.
  - cbn [append]. cbn [splitDots3]. now rewrite L.
  - apply lacks_cons in Ha. destruct Ha as [Hc Ha]. specialize (IH Ha Hb). cbn [append] in *.
    destruct (splitDots3_cons c (a ++ String "." (String "." (String "." b)))%string) as [E|E]; [now rewrite E, IH|]. destruct E as (r & E & _). exfalso. apply Hc. cbn in E. congruence.
Qed.
Lemma decimal_chars w z : decimalInteger w z -> allChars (fun a => isDigit a || Ascii.eqb a "-") w = true.
Proof.
  assert (K : forall v, allDigits v = true -> allChars (fun a => isDigit a || Ascii.eqb a "-") v = true).
  { induction v as [|a v IH]; [reflexivity|]. cbn [allDigits allChars]. intros H. apply andb_prop in H. destruct H as [-> H]. cbn [orb andb]. auto. }
  intros [(n & (_ & H & _) & _)|(v & n & -> & (_ & H & _) & _)]; [now apply K|]. cbn [allChars]. rewrite K by exact H. reflexivity.
Qed.
Lemma decimal_lacks w z c : decimalInteger w z -> isDigit c = false -> c <> "-"%char -> lacks c w.
Proof.
  intros H C1 C2. unfold lacks. eapply allChars_impl; [|apply (decimal_chars w z H)]. intros a. destruct (Ascii.eqb_spec a c) as [->|]; [|reflexivity]. rewrite C1. destruct (Ascii.eqb_spec c "-"); [contradiction|discriminate].
Qed.
Lemma decimal_noWs w z : decimalInteger w z -> noWs w = true.
Proof. intros H. unfold noWs. eapply allChars_impl; [|apply (decimal_chars w z H)]. intros a. destruct a as [[] [] [] [] [] [] [] []]; cbv; auto. Qed.
Lemma decimal_pyInt w z : decimalInteger w z -> pyInt w = Some z.
Proof.
  intros H. pose proof (decimal_noWs w z H) as W. destruct H as [(n & H & ->)|(v & n & -> & H & ->)]; [now apply pyInt_digits|].
  destruct H as (H1 & H2 & H3). unfold pyInt. rewrite trim_spec, strip_noWs by exact W. rewrite intDigits_all, H3 by auto. reflexivity.
Qed.
Lemma append_nil_r s : (s ++ "")%string = s.
Proof. induction s; cbn; congruence. Qed.
Lemma white_cons c u : white (String c u) -> isWs c = true /\ white u.
Proof. intros H. split; [apply H; now left|]. intros d Hd. apply H. now right. Qed.
Lemma white_lacks c u : white u -> isWs c = false -> lacks c u.
Proof.
  intros H C. induction u as [|a u IH]; [reflexivity|]. apply white_cons in H. destruct H as [Ha Hu]. unfold lacks in *. cbn [allChars]. rewrite (IH Hu), andb_true_r. destruct (Ascii.eqb_spec a c) as [->|]; [congruence|reflexivity].
Qed.
Lemma white_left u s : white u -> strip (u ++ s) = strip s.
Proof. intros H. induction u as [|c u IH]; [reflexivity|]. apply white_cons in H. destruct H as [Hc Hu]. cbn [append]. rewrite strip_ws by exact Hc. auto. Qed.
Lemma white_right u : forall s, white u -> strip (s ++ u) = strip s.
Proof.
  induction u as [|c u IH]; intros s H; [now rewrite append_nil_r|]. apply white_cons in H. destruct H as [Hc Hu].
  change (String c u) with (String c "" ++ u)%string. rewrite <- append_assoc, IH by exact Hu. now apply strip_end.
Qed.
Lemma decimal_ends w z : decimalInteger w z -> (exists a r, w = String a r /\ isWs a = false) /\ exists r b, w = (r ++ String b "")%string /\ isWs b = false.
Proof.
  intros H. pose proof (decimal_noWs w z H) as W. assert (NE : w <> ""%string) by (destruct H as [(n & (H & _) & _)|(v & n & -> & _)]; [exact H|discriminate]). clear H.
  split; [destruct w as [|a r]; [now elim NE|]; exists a, r; split; [reflexivity|]; unfold noWs in W; cbn [allChars] in W; apply andb_prop in W; now apply negb_true_iff|].
  induction w as [|a w IH]; [now elim NE|]. unfold noWs in *. cbn [allChars] in W. apply andb_prop in W. destruct W as [W1 W2]. destruct w as [|a' w].
  - exists ""%string, a. split; [reflexivity|]. now apply negb_true_iff.
  - destruct IH as (r & b & E & B); [exact W2|discriminate|]. exists (String a r), b. split; [cbn [append]; now rewrite <- E|exact B].
Qed.
Lemma range_strip a b m mn mx : decimalInteger a mn -> decimalInteger b mx -> strip (a ++ m ++ b) = (a ++ m ++ b)%string.
Proof.
  intros A B. destruct (decimal_ends _ _ A) as [(c & r & -> & C) _]. destruct (decimal_ends _ _ B) as [_ (q & d & -> & E)].
  replace (String c r ++ m ++ q ++ String d "")%string with ((String c r ++ m ++ q) ++ String d "")%string by now rewrite !append_assoc. apply strip_solid; [exact C|exact E].
Qed.
Lemma pyInt_white u w v z : white u -> white v -> decimalInteger w z -> pyInt (u ++ w ++ v) = Some z.
Proof.
  intros U V H. rewrite <- (decimal_pyInt w z H). unfold pyInt. rewrite !trim_spec, white_left, white_right by assumption. reflexivity.
Qed.
Lemma range_white v a s t b mn mx : white v -> decimalInteger a mn -> decimalInteger b mx -> strip (v ++ a ++ s ++ "..." ++ t ++ b) = ((a ++ s) ++ "..." ++ (t ++ b))%string.
Proof.
  intros V A B. rewrite white_left by exact V. replace (a ++ s ++ "..." ++ t ++ b)%string with (a ++ (s ++ "..." ++ t) ++ b)%string by now rewrite !append_assoc.
  rewrite (range_strip a b _ mn mx) by assumption. now rewrite !append_assoc.
Qed.
Lemma pyInt_low a s mn : white s -> decimalInteger a mn -> pyInt (a ++ s) = Some mn.
Proof. intros. apply (pyInt_white "" a s); auto. intros c []. Qed.
Lemma pyInt_high t b mx : white t -> decimalInteger b mx -> pyInt (t ++ b) = Some mx.
Proof. intros. rewrite <- (append_nil_r b). apply (pyInt_white t b ""); auto. intros c []. Qed.

Lemma plain_declares line d : plainDeclaration line d -> declares line d.
Proof.
  intros [x H _ _|x a b mn mx u v s t T _ _ A B H U V P Q]; [now constructor|].
  assert (SX : strip (x ++ u) = x) by (rewrite white_right by exact U; now apply token_strip). rewrite <- SX at 2.
  apply (d_int _ (x ++ u)%string (v ++ a ++ s ++ "..." ++ t ++ b)%string (a ++ s)%string (t ++ b)%string);
    [now rewrite append_assoc| |now apply (range_white _ _ _ _ _ mn mx)|apply pyInt_spec; now apply pyInt_low|apply pyInt_spec; now apply pyInt_high|exact H].
  apply hasChar_false. apply lacks_hasChar. apply lacks_app; [now apply token_lacks|now apply white_lacks].
Qed.
Lemma F2_declares ls ds : Forall2 plainDeclaration ls ds -> Forall2 declares ls ds.
Proof. induction 1; constructor; auto. now apply plain_declares. Qed.
Lemma plain_token line x mn mx : plainDeclaration line (DInt x mn mx) -> isWordToken x = true.
Proof. intros H. inversion H; subst; auto. Qed.

Lemma declareLine_ok th k line d st : plainDeclaration line d -> exists st', declareLine th k line st = Ret st'.
Proof.
  intros H. unfold declareLine. destruct (String.eqb line "" || firstIs "#" line); [eauto|]. destruct H as [x H1 H2 H3|x a b mn mx u v s t T H2 H3 A B H U V P Q].
  - apply hasChar_false in H1, H2, H3. rewrite H1, H2, H3. eauto.
  - apply hasChar_false in H2, H3.
    assert (LD : forall c w z, decimalInteger w z -> isDigit c = false -> c <> "-"%char -> hasChar c w = false) by (intros; apply lacks_hasChar; eapply decimal_lacks; eauto).
    assert (LW : forall c w, white w -> isWs c = false -> hasChar c w = false) by (intros; apply lacks_hasChar; now apply white_lacks).
    rewrite !hasChar_app, H2, H3. rewrite !(fun c => LD c a mn A) by (reflexivity || discriminate). rewrite !(fun c => LD c b mx B) by (reflexivity || discriminate).
    rewrite !(fun c => LW c u U), !(fun c => LW c v V), !(fun c => LW c s P), !(fun c => LW c t Q) by reflexivity.
    change (hasChar "'" ":") with false. change (hasChar "'" "...") with false. change (hasChar "@" ":") with false. change (hasChar "@" "...") with false. change (hasChar ":" ":") with true. cbn [orb].
    rewrite orb_true_r. replace (x ++ u ++ ":" ++ v ++ a ++ s ++ "..." ++ t ++ b)%string with ((x ++ u) ++ String ":" (v ++ a ++ s ++ "..." ++ t ++ b))%string by now rewrite append_assoc.
    rewrite splitChar_cut by (apply lacks_app; [now apply token_lacks|now apply white_lacks]).
    rewrite splitChar_lacks by (repeat apply lacks_app; try (eapply decimal_lacks; [eassumption|reflexivity|discriminate]); try (now apply white_lacks); reflexivity). cbn [map]. rewrite !trim_spec, (range_white v a s t b mn mx) by assumption.
    rewrite split_dots by (apply lacks_app; solve [now apply white_lacks|eapply decimal_lacks; [eassumption|reflexivity|discriminate]]).
    rewrite (pyInt_low a s mn), (pyInt_high t b mx) by assumption. destruct (Z.ltb_spec mx mn); [lia|]. eauto.
Qed.
Lemma declareLine_empty th k line st : content line = false -> exists st', declareLine th k line st = Ret st'.
Proof. unfold content, declareLine. intros H. apply negb_false_iff in H. rewrite H. eauto. Qed.
Lemma declareLines_ok th k ls : (forall line, In line (filter content ls) -> exists d, plainDeclaration line d) -> forall st, exists st', declareLines th k ls st = Ret st'.
Proof.
  induction ls as [|l ls IH]; intros H st; [cbn; eauto|]. cbn [declareLines filter] in *.
  assert (X : exists st', declareLine th k l st = Ret st').
  { destruct (content l) eqn:C; [|now apply declareLine_empty]. destruct (H l (or_introl eq_refl)) as (d & Hd). eapply declareLine_ok; eauto. }
  destruct X as (st1 & ->). cbn [pybind]. apply IH. intros line Hl. apply H. destruct (content l); [now right|exact Hl].
Qed.

(** ** Formulas *)
Lemma width_ext D D' : (forall x, limitsOf D x = limitsOf D' x) -> forall a, width D a = width D' a.
Proof. intros H a. induction a; cbn [width]; rewrite ?H; congruence. Qed.
Lemma num_ext D D' : (forall x, limitsOf D x = limitsOf D' x) -> forall next a, numSupported D next a <-> numSupported D' next a.
Proof.
  intros H next a. induction a; cbn [numSupported]; rewrite ?(width_ext D D' H); try tauto.
  destruct (unprime _) as [y p]. rewrite H. reflexivity.
Qed.
Lemma supported_ext D D' : (forall x, limitsOf D x = limitsOf D' x) -> forall f next, supported D next f <-> supported D' next f.
Proof.
  intros H. induction f; intros next; cbn [supported]; try (rewrite ?IHf1, ?IHf2; tauto); try apply IHf; try (rewrite !(num_ext D D' H); tauto).
  destruct o; try tauto; try apply IHf. rewrite IHf. reflexivity.
Qed.

Lemma convertLines_ok aps D ls : (forall a, In a ls -> exists b, convertLine aps D a = Ret b) -> exists bs, convertLines aps D ls = Ret bs.
Proof.
  induction ls as [|a ls IH]; intros H; [cbn; eauto|]. cbn [convertLines]. destruct (H a (or_introl eq_refl)) as (b & ->). cbn [pybind]. destruct IH as (bs & ->); [intros; apply H; now right|]. cbn [pybind]. eauto.
Qed.

(** ** Files *)
Lemma conversion_ok th text L ins outs :
  layout None (file_lines text) = Some L ->
  Forall2 plainDeclaration (linesOf SInput L) ins -> Forall2 plainDeclaration (linesOf SOutput L) outs ->
  NoDup (map fst (integers (ins ++ outs))) ->
  (forall s line, formulaSection s = true -> In (s, line) L -> blanksOnly line /\
     ((exists g, prefixLine ins outs line g) \/ exists f, reads (booleanWords ins outs) line f /\ supported (integers (ins ++ outs)) false f)) ->
  exists out, performConversion th text = Ret out.
Proof.
  intros HL PI PO HN HF. unfold performConversion. rewrite getlines_spec.
  destruct (read_spec' (file_lines text) None emptyDict L (file_lines_noNl _) HL) as (d & add & E1 & E2 & T & K & U). cbn [nameOf] in E1. rewrite E1. cbn [pybind].
  assert (Ed : forall k, d k = add k) by (intros k; rewrite E2; reflexivity).
  assert (KS : forall s, filter content (d (header s)) = linesOf s L) by (intros s; rewrite Ed, K; apply keyLines_header).
  unfold ioKeys. cbn [declareAll]. set (st0 := mkConv emptyDict [] [] d) in *.
  assert (HI : Forall2 declares (linesOf SInput L) ins) by now apply F2_declares.
  assert (HO : Forall2 declares (linesOf SOutput L) outs) by now apply F2_declares.
  assert (WI : forall s ds, Forall2 plainDeclaration (linesOf s L) ds ->
    forall line x mn mx, In line (filter content (d (header s))) -> declares line (DInt x mn mx) -> isWordToken x = true).
  { intros s l F line x mn mx Hl Hd. rewrite KS in Hl. destruct (Forall2_in_l _ _ _ _ F Hl) as (d0 & Hd0 & H0). apply (plain_token line x mn mx). rewrite (declares_unique _ _ _ Hd (plain_declares _ _ H0)). exact H0. }
  assert (OKD : forall s ds, Forall2 plainDeclaration (linesOf s L) ds -> forall st, exists st', declareLines th (header s) (d (header s)) st = Ret st').
  { intros s l F st. apply declareLines_ok. intros line Hl. rewrite KS in Hl. destruct (Forall2_in_l _ _ _ _ F Hl) as (d0 & Hd0 & H0). eauto. }
  destruct (OKD SInput ins PI st0) as (st1 & D1). cbn [header] in D1. rewrite D1. cbn [pybind].
  destruct (OKD SOutput outs PO st1) as (st2 & D2). cbn [header] in D2. rewrite D2. cbn [pybind].
  rewrite !Ed.
  assert (NO : forall k, ~ In k (map header sections) -> declareLines th k (add k) st2 = Ret st2) by (intros k Hk; rewrite U by exact Hk; reflexivity).
  do 3 (rewrite NO by (cbn; intuition discriminate); cbn [pybind]). clear NO.
  apply declareLines_spec in D1; [|rewrite Ed; apply T|apply (WI SInput ins PI)].
  apply declareLines_spec in D2; [|rewrite Ed; apply T|apply (WI SOutput outs PO)].
  destruct D1 as (io1 & p1 & ds1 & A1 & A2 & A3 & A4 & A5 & A6 & A7 & A8 & A9 & A10).
  destruct D2 as (io2 & p2 & ds2 & B1 & B2 & B3 & B4 & B5 & B6 & B7 & B8 & B9 & B10).
  assert (ds1 = ins) as ->. { apply (F2_unique declares declares_unique (linesOf SInput L)); auto. rewrite <- KS. exact A9. }
  assert (ds2 = outs) as ->. { apply (F2_unique declares declares_unique (linesOf SOutput L)); auto. rewrite <- KS. exact B9. }
  assert (HG : Forall good (ins ++ outs)) by (apply Forall_app; auto).
  assert (EA : booleanAPs st2 = flat_map apWords (ins ++ outs)) by (rewrite B4, A4, flat_map_app; reflexivity).
  assert (EN : numberAPLimits st2 = rev (integers (ins ++ outs))) by (rewrite B5, A5, integers_app, rev_app_distr; cbn; now rewrite app_nil_r).
  assert (PR : forall k, propertyLines st2 k = add k ++ p1 k ++ p2 k) by (intros k; rewrite B6, A6, <- app_assoc; cbn; now rewrite Ed).
  assert (FC : forall s, filter contentS (add (header s)) = linesOf s L).
  { intros s. rewrite <- KS, Ed. specialize (T (header s)). induction T as [|a l (T1 & _) _ IH]; [reflexivity|]. cbn [filter]. unfold contentS at 1. rewrite T1, IH. reflexivity. }
  assert (LIM : forall s, formulaSection s = true -> filter contentS (add (header s) ++ p1 (header s) ++ p2 (header s)) = linesOf s L ++ limitsIn th ins outs s).
  { intros s Hs. rewrite !filter_app, FC, A8, B8. unfold limitsIn. f_equal. f_equal; apply flat_map_ext; intros d0; [now apply limKey_in|now apply limKey_out]. }
  assert (TC : forall s, Forall tidy (linesOf s L) /\ Forall (fun a => content a = true) (linesOf s L)).
  { intros s. rewrite <- KS, Ed. split; apply Forall_forall; intros a Ha; apply filter_In in Ha; [|tauto]. specialize (T (header s)). rewrite Forall_forall in T. apply T. tauto. }
  assert (CV : forall s, formulaSection s = true -> exists bs, convertLines (booleanAPs st2) (numberAPLimits st2) (propertyLines st2 (header s)) = Ret bs).
  { intros s Hs. apply convertLines_ok. intros a Ha. rewrite PR in Ha. rewrite EA, EN. unfold convertLine. rewrite trim_spec. destruct (contentS a) eqn:C; [|unfold contentS, content in C; apply negb_false_iff in C; rewrite C; eauto].
    assert (Ia : In a (linesOf s L ++ limitsIn th ins outs s)) by (rewrite <- LIM by exact Hs; apply filter_In; auto).
    unfold contentS, content in C. apply negb_true_iff in C. rewrite C.
    assert (VP : forall g, blanksOnly a -> prefixLine ins outs a g -> isValidRecursiveSlugsProperty (flat_map apWords (ins ++ outs)) (splitChar " " (strip a)) = true).
    { intros g B P. eapply prefix_copied; [exact HG|intros c Hc W; apply B; [now apply strip_in|exact W]|]. unfold prefixLine in *. rewrite words_strip. exact P. }
    apply in_app_or in Ia. destruct Ia as [Ia|Ia].
    - apply in_linesOf in Ia. destruct (HF s a Hs Ia) as (B & [(g & P)|(f & R & S)]); [rewrite (VP g B P); eauto|].
      destruct (isValidRecursiveSlugsProperty _ _); [eauto|]. apply C80_reads in R. change (booleanWords ins outs) with (flat_map apWords (ins ++ outs)) in R. rewrite R. apply C40_accepts.
      apply (supported_ext (rev (integers (ins ++ outs))) (integers (ins ++ outs))); [|exact S]. apply limits_rev. exact HN.
    - assert (X : exists n d0, In d0 (ins ++ outs) /\ In a (limOne n d0)).
      { unfold limitsIn in Ia. apply in_app_or in Ia. destruct Ia as [Ha'|Ha']; apply in_flat_map in Ha'; destruct Ha' as (d0 & Hd0 & Ha'); apply in_flat_map in Ha'; destruct Ha' as (n & _ & Ha'); exists n, d0; (split; [apply in_app_iff; auto|exact Ha']). }
      destruct X as (n & d0 & Hd & Hl). destruct d0 as [x|x mn mx]; [destruct Hl|].
      assert (E0 : limOne n (DInt x mn mx) = [a]) by (unfold limOne in *; destruct (_ =? _)%Z; [destruct Hl|destruct Hl as [<-|[]]; reflexivity]).
      destruct (limit_means ins outs HG n x mn mx a Hd E0) as (g & Hg & _). apply sig_prefix in Hg. rewrite (VP g (limOne_blanks ins outs HG n _ _ Hd Hl) Hg). eauto. }
  unfold propertyKeys. cbn [convertSections].
  destruct (CV SEnvTrans eq_refl) as (b1 & X1), (CV SEnvInit eq_refl) as (b2 & X2), (CV SSysTrans eq_refl) as (b3 & X3), (CV SSysInit eq_refl) as (b4 & X4), (CV SEnvLive eq_refl) as (b5 & X5), (CV SSysLive eq_refl) as (b6 & X6).
  cbn [header] in *. rewrite X1, X2, X3, X4, X5, X6. cbn [pybind]. eauto.
Qed.
