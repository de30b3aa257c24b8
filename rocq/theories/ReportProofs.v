(** * Proofs: tools/createSpecificationReport.py *)

From Coq Require Import String Ascii List Bool Arith NArith ZArith Lia.
From Verif Require Import BDD VarTypes Synth FormulaSpec Parser Spec FileSpec Execute Sem FixBase ParserProofs FileProofs PropsParser OutputProofs Explicit SymbolicProofs EstimatorText FastSlowFile MonoProofs MinCoreProofs AigMain
  Structured StructuredProofs StructFile StructFileProofs StructDeclProofs StructLineProofs StructMain Stuck StuckProofs ResilientSpec Resilient FrontierProofs ResilientProofs Decoder GameExt ReportSpec Report.
Import ListNotations.
Local Open Scope list_scope.

(** ** The text of the page *)

Lemma shown_escape l b : htmlShown (escape l ++ b) = (l ++ htmlShown b)%string.
Proof.
  induction l as [|a l IH]; [reflexivity|]. cbn [escape].
  destruct (Ascii.eqb a "&") eqn:E1; [apply Ascii.eqb_eq in E1; subst a; cbn [append htmlShown]; now rewrite IH|].
  destruct (Ascii.eqb a "<") eqn:E2; [apply Ascii.eqb_eq in E2; subst a; cbn [append htmlShown]; now rewrite IH|].
  destruct (Ascii.eqb a ">") eqn:E3; [apply Ascii.eqb_eq in E3; subst a; cbn [append htmlShown]; now rewrite IH|].
  cbn [append]. rewrite <- IH. destruct a as [[] [] [] [] [] [] [] []]; try reflexivity; discriminate.
Qed.
Definition newlines (n : nat) : string := String.concat "" (map (fun _ => String "010" "") (seq 0 n)).
Lemma concat_nil_cons a l : String.concat "" (a :: l) = (a ++ String.concat "" l)%string.
Proof. cbn [String.concat]. destruct l; cbn; [induction a; cbn; congruence|reflexivity]. Qed.
Lemma newlines_S n : newlines (S n) = String "010" (newlines n).
Proof.
  unfold newlines. cbn [seq map]. rewrite concat_nil_cons. cbn [append]. f_equal. generalize 0 at 2. generalize 1. induction n as [|n IH]; intros i j; [reflexivity|].
  cbn [seq map]. rewrite !concat_nil_cons. now rewrite (IH (S i) (S j)).
Qed.
Lemma shown_newlines n b : htmlShown (newlines n ++ b) = (newlines n ++ htmlShown b)%string.
Proof. induction n as [|n IH]; [reflexivity|]. rewrite newlines_S. cbn [append htmlShown]. now rewrite IH. Qed.
Lemma sapp_assoc3 a b c : ((a ++ b) ++ c)%string = (a ++ b ++ c)%string.
Proof. induction a as [|x a IH]; [reflexivity|]. cbn. now rewrite IH. Qed.
Lemma newlines_snoc n b : (newlines (S n) ++ b)%string = (newlines n ++ newlineText ++ b)%string.
Proof. induction n as [|n IH]; [reflexivity|]. rewrite newlines_S. cbn [append]. rewrite IH, newlines_S. reflexivity. Qed.

Lemma show_spec : forall ls n p, (0 <= n)%Z -> exists core trail rest pad,
  ls = core ++ trail ++ rest /\ Forall blankLine trail /\ (rest = [] \/ exists m r, rest = m :: r /\ strip m = endMarker) /\
  Forall (fun l => strip l <> endMarker) core /\ (core = [] \/ exists c l, core = c ++ [l] /\ ~ blankLine l) /\ (pad = ""%string \/ pad = " "%string) /\
  htmlShown (showSpec n p ls) = match core with [] => pad | _ => (newlines (Z.to_nat n) ++ String.concat "" (map shownLine core) ++ pad)%string end.
Proof.
  induction ls as [|l ls IH]; intros n p Hn; cbn [showSpec].
  - exists [], [], [], (if p then " "%string else ""%string). repeat split; auto; destruct p; auto.
  - rewrite trim_spec. destruct (String.eqb (strip l) "") eqn:B; [|destruct (String.eqb (strip l) "# --- End of the specification for the report") eqn:M].
    + assert (BL : blankLine l) by now apply String.eqb_eq.
      destruct (IH (n + 1)%Z p ltac:(lia)) as (core & trail & rest & pad & -> & A2 & A3 & A4 & A5 & A6 & A7).
      destruct core as [|k core].
      * exists [], (l :: trail), rest, pad. repeat split; auto.
      * exists (l :: k :: core), trail, rest, pad. repeat split; auto.
        -- constructor; auto. rewrite BL. discriminate.
        -- right. destruct A5 as [A5|(c & x & E & NB)]; [discriminate|]. exists (l :: c), x. now rewrite E.
        -- rewrite A7. replace (Z.to_nat (n + 1)) with (S (Z.to_nat n)) by lia. rewrite newlines_snoc. change (map shownLine (l :: k :: core)) with (shownLine l :: map shownLine (k :: core)).
           rewrite concat_nil_cons. unfold shownLine at 2. rewrite B. now rewrite sapp_assoc3.
    + exists [], [], (l :: ls), (if p then " "%string else ""%string). repeat split; auto; try (destruct p; auto; fail).
      right. exists l, ls. split; auto. now apply String.eqb_eq.
    + destruct (IH 0%Z (softspace l) ltac:(lia)) as (core & trail & rest & pad & -> & A2 & A3 & A4 & A5 & A6 & A7).
      assert (NB : ~ blankLine l) by now apply String.eqb_neq.
      exists (l :: core), trail, rest, pad. repeat split; auto.
      * constructor; auto. now apply String.eqb_neq.
      * right. destruct A5 as [->|(c & x & -> & X)]; [exists [], l; auto|exists (l :: c), x; auto].
      * fold (newlines (Z.to_nat n)). rewrite shown_newlines, shown_escape, A7. cbn [map]. rewrite concat_nil_cons. assert (SL : shownLine l = l) by (unfold shownLine; now rewrite B). rewrite SL.
        destruct core as [|k core]; [cbn [map String.concat append]; now rewrite sapp_assoc3|]. cbn [newlines Z.to_nat seq map String.concat append]. now rewrite sapp_assoc3.
Qed.
Lemma show_lead : forall ls n p, exists lead ls', ls = lead ++ ls' /\ Forall blankLine lead /\ (ls' = [] \/ exists l r, ls' = l :: r /\ ~ blankLine l) /\
  showSpec n p ls = showSpec (n + Z.of_nat (length lead)) p ls'.
Proof.
  induction ls as [|l ls IH]; intros n p.
  - exists [], []. repeat split; auto.
  - destruct (String.eqb (strip l) "") eqn:B.
    + destruct (IH (n + 1)%Z p) as (lead & ls' & -> & A1 & A2 & A3). exists (l :: lead), ls'. repeat split; auto.
      * constructor; auto. now apply String.eqb_eq.
      * cbn [showSpec]. rewrite trim_spec, B, A3. f_equal. cbn [length]. lia.
    + exists [], (l :: ls). repeat split; auto; [right; exists l, ls; split; auto; now apply String.eqb_neq|]. cbn [length]. now rewrite Z.add_0_r.
Qed.
Lemma show_none n p l ls : (n <= 0)%Z -> ~ blankLine l -> showSpec n p (l :: ls) = showSpec 0 p (l :: ls).
Proof.
  intros H B. cbn [showSpec]. rewrite trim_spec. apply String.eqb_neq in B. rewrite B. replace (Z.to_nat n) with 0 by lia. reflexivity.
Qed.
Lemma lines_text s : textLines s (readlinesKeep s).
Proof.
  induction s as [|a s IH]; [constructor|]. cbn [readlinesKeep]. destruct (Ascii.eqb a "010") eqn:E.
  - apply Ascii.eqb_eq in E. subst. apply (TLcons ""); auto. intros [].
  - apply Ascii.eqb_neq in E. destruct IH as [|l NE N|l s' ls N T].
    + apply TLlast; [discriminate|]. intros [X|[]]; auto.
    + apply TLlast; [discriminate|]. intros [X|X]; auto.
    + apply (TLcons (String a l)); auto. intros [X|X]; auto.
Qed.

Definition angles (s : string) : Prop := In "<"%char (list_ascii_of_string s) \/ In ">"%char (list_ascii_of_string s).
Lemma angles_app a b : angles (a ++ b) -> angles a \/ angles b.
Proof. unfold angles. rewrite list_ascii_app. rewrite !in_app_iff. tauto. Qed.
Lemma escape_angles l : ~ angles (escape l).
Proof.
  unfold angles. induction l as [|a l IH]; [intros [[]|[]]|]. cbn [escape].
  destruct (Ascii.eqb a "&"); [cbn; intuition discriminate|]. destruct (Ascii.eqb a "<") eqn:E2; [cbn; intuition discriminate|].
  destruct (Ascii.eqb a ">") eqn:E3; [cbn; intuition discriminate|]. apply Ascii.eqb_neq in E2, E3. cbn [list_ascii_of_string In]. intuition.
Qed.
Lemma newlines_angles n : ~ angles (newlines n).
Proof. induction n as [|n IH]; [intros [[]|[]]|]. rewrite newlines_S. unfold angles in *. cbn [list_ascii_of_string In]. intuition discriminate. Qed.
Lemma show_angles : forall ls n p, ~ angles (showSpec n p ls).
Proof.
  assert (P : forall p : bool, ~ angles (if p then " " else "")%string) by (intros []; unfold angles; cbn; intuition discriminate).
  induction ls as [|l ls IH]; intros n p; cbn [showSpec]; [apply P|].
  destruct (String.eqb (trim l) ""); [apply IH|]. destruct (String.eqb (trim l) "# --- End of the specification for the report"); [apply P|]. fold (newlines (Z.to_nat n)).
  intros H. apply angles_app in H. destruct H as [H|H]; [now apply newlines_angles in H|]. apply angles_app in H. destruct H as [H|H]; [now apply escape_angles in H|now apply IH in H].
Qed.

(** ** Positions that are winning *)

Section FROM.
  Variables g g' : game.
  Variable N : nat.
  Hypothesis Hout : forall k, g_out g k = g_out g' k.
  Variable f : strategy.
  Variable s0 : state.
  Fixpoint rebuildFrom (h : list state) : list state :=
    match h with
    | [] => []
    | s :: h => match h with [] => [s0] | _ => let r := rebuildFrom h in merge g (norm g N s) (f r (norm g N s)) :: r end
    end.
  Definition transferFrom : strategy := fun h x => f (rebuildFrom h) (norm g N x).
  Lemma history_ne h x n : history_from g' h s0 x n <> [].
  Proof. destruct n; discriminate. Qed.
  Lemma history_from_transfer x n : rebuildFrom (history_from g' transferFrom s0 x n) = history_from g f s0 (fun m => norm g N (x m)) n.
  Proof.
    induction n as [|n IH]; cbn [history_from]; [reflexivity|]. cbn [rebuildFrom].
    destruct (history_from g' transferFrom s0 x n) eqn:E; [now apply history_ne in E|]. rewrite IH, (norm_merge g g' N Hout). reflexivity.
  Qed.
  Lemma play_from_transfer x : GameExt.agree N (play_from g' transferFrom s0 x) (play_from g f s0 (fun m => norm g N (x m))).
  Proof.
    intros n k Hk. unfold play_from. destruct n as [|n]; cbn [history_from hd]; [reflexivity|]. unfold merge. rewrite <- Hout.
    destruct (g_out g k) eqn:E.
    - unfold transferFrom at 1. now rewrite history_from_transfer.
    - symmetry. now apply norm_val.
  Qed.
End FROM.
Lemma winning_transfer g g' N s : (forall k, g_out g k = g_out g' k) ->
  (forall pi pi', GameExt.agree N pi pi' -> safe_and_live g pi' -> safe_and_live g' pi) -> winning g s -> winning g' s.
Proof.
  intros H S (f & W). exists (transferFrom g N f s). intros x. eapply S; [now apply play_from_transfer|]. apply W.
Qed.

Lemma sal_agree c : wf c -> forall pi pi', GameExt.agree (nvars c) pi pi' -> safe_and_live (game_of c) pi' -> safe_and_live (game_of c) pi.
Proof.
  intros Hwf pi pi' A. destruct Hwf as [Hk HiE HiS HsE HsS HA HG _ _].
  assert (T : forall f n, dep (isAnyV c) f -> Sem.trans f (pi n) (pi (S n)) = Sem.trans f (pi' n) (pi' (S n))).
  { intros f n D. apply (trans_ext c Hk); auto. }
  assert (DE : dep (isAnyV c) (safetyEnv c)).
  { eapply dep_weaken; [|exact HsE]. now intros v [H _]. }
  assert (LV : forall bl, Forall (dep (isAnyV c)) bl -> forall rho rho',
     (forall f n, dep (isAnyV c) f -> Sem.trans f (rho n) (rho (S n)) = Sem.trans f (rho' n) (rho' (S n))) ->
     (forall p, In p (map Sem.trans bl) -> inf_often p rho) -> (forall p, In p (map Sem.trans bl) -> inf_often p rho')).
  { intros bl F rho rho' E X p Hp n. destruct (X p Hp n) as (m & Hm & Y). exists m. split; auto. apply in_map_iff in Hp. destruct Hp as (b & <- & Hb).
    rewrite <- E; auto. rewrite Forall_forall in F. auto. }
  unfold safe_and_live, game_of. cbn [g_safeE g_safeS g_liveA g_liveG].
  intros (H2 & H3). split.
  - intros n Hn. rewrite T by auto. apply H2. intros m Hm. rewrite <- T; auto.
  - intros HE HAs. apply (LV _ HG pi' pi); [intros; symmetry; now apply T|].
    apply H3; [intros n; rewrite <- T; auto|]. now apply (LV _ HA pi pi').
Qed.
Section GAME.
  Variable L : items.
  Variable bs : section -> list BF.
  Variable fs : section -> list fml.
  Hypothesis Hs : forall s, formulaSection s = true -> Forall2 sameFun (bs s) (fs s).
  Local Notation c := (finalContext L bs).
  Lemma file_sal pi : safe_and_live (game_of c) pi <-> safe_and_live (file_game L fs) pi.
  Proof.
    pose proof (live_equiv _ _ (Hs SEnvLive eq_refl) pi) as LA.
    pose proof (live_equiv _ _ (Hs SSysLive eq_refl) pi) as LG.
    unfold safe_and_live, game_of, file_game.
    cbn [g_safeE g_safeS g_liveA g_liveG safetyEnv safetySys livenessAssumptions livenessGuarantees finalContext].
    assert (ET : forall n, Sem.trans (bandAll (bs SEnvTrans)) (pi n) (pi (S n)) =
       forallb (fun f => holds f (valuation (pi n) (pi (S n)))) (fs SEnvTrans))
      by (intros; apply bandAll_holds; auto).
    assert (ST : forall n, Sem.trans (bandAll (bs SSysTrans)) (pi n) (pi (S n)) =
       forallb (fun f => holds f (valuation (pi n) (pi (S n)))) (fs SSysTrans))
      by (intros; apply bandAll_holds; auto).
    split; intros (H2 & H3); split.
    - intros n Hn. rewrite <- ST. apply H2. intros m Hm. rewrite ET. auto.
    - intros HE HA. apply LG. apply H3; [|now apply LA]. intros n. rewrite ET. auto.
    - intros n Hn. rewrite ST. apply H2. intros m Hm. rewrite <- ET. auto.
    - intros HE HA. apply LG. apply H3; [|now apply LA]. intros n. rewrite <- ET. auto.
  Qed.
  Lemma winning_file s : wf c -> winning (game_of c) s <-> winning (file_game L fs) s.
  Proof.
    intros Hwf. split; apply (winning_transfer _ _ (nvars c)).
    - intros k. apply file_out.
    - intros pi pi' A H. apply file_sal. now apply (sal_agree _ Hwf pi pi').
    - intros k. symmetry. apply file_out.
    - intros pi pi' A H. apply (sal_agree _ Hwf pi pi' A). now apply file_sal.
  Qed.
End GAME.

Lemma play_from_same g g' : g_out g = g_out g' -> forall f s x n, history_from g f s x n = history_from g' f s x n.
Proof. intros E f s x n. induction n as [|n IH]; cbn [history_from]; [reflexivity|]. rewrite IH. unfold merge. now rewrite E. Qed.

(** Winning with the guarantee "infinitely often 0" only. *)
Lemma winning_falsify L L' fs fs' s : outputs L' = outputs L -> fs' SEnvTrans = fs SEnvTrans -> fs' SSysTrans = fs SSysTrans ->
  fs' SEnvLive = fs SEnvLive -> fs' SSysLive = [FFalse] -> winning (file_game L' fs') s <-> canFalsify (file_game L fs) s.
Proof.
  intros EO E1 E2 E3 E4.
  assert (PN : forall f x n, play_from (file_game L' fs') f s x n = play_from (file_game L fs) f s x n).
  { intros f x n. unfold play_from. rewrite (play_from_same (file_game L' fs') (file_game L fs)); [reflexivity|]. unfold file_game. cbn [g_out]. now rewrite EO. }
  assert (SE : forall a b, g_safeE (file_game L' fs') a b = g_safeE (file_game L fs) a b) by (intros a b; unfold file_game; cbn [g_safeE]; now rewrite E1).
  assert (SS : forall a b, g_safeS (file_game L' fs') a b = g_safeS (file_game L fs) a b) by (intros a b; unfold file_game; cbn [g_safeS]; now rewrite E2).
  assert (LA : g_liveA (file_game L' fs') = g_liveA (file_game L fs)) by (unfold file_game; cbn [g_liveA]; now rewrite E3).
  assert (NO : forall pi, ~ inf_often (fun st st' => holds FFalse (valuation st st')) pi) by (intros pi H; destruct (H 0) as (m & _ & X); discriminate X).
  unfold winning, canFalsify. split; intros (f & W); exists f; intros x; specialize (W x); cbv zeta in *.
  - destruct W as [W1 W2]. split.
    + intros n Hn. specialize (W1 n). rewrite !PN, SS in W1. apply W1. intros m Hm. rewrite !PN, SE. now apply Hn.
    + intros [HE HA]. apply (NO (play_from (file_game L' fs') f s x)). apply W2.
      * intros n. rewrite !PN, SE. apply HE.
      * rewrite LA. intros p Hp n. destruct (HA p Hp n) as (m & Hm & X). exists m. now rewrite !PN.
      * unfold file_game. cbn [g_liveG]. rewrite E4. now left.
  - destruct W as [W1 W2]. split.
    + intros n Hn. rewrite !PN, SS. apply W1. intros m Hm. specialize (Hn m Hm). now rewrite !PN, SE in Hn.
    + intros HE HA. elim W2. split.
      * intros n. specialize (HE n). now rewrite !PN, SE in HE.
      * rewrite LA in HA. intros p Hp n. destruct (HA p Hp n) as (m & Hm & X). exists m. now rewrite !PN in X.
Qed.

(** ** The file for the analysis *)

Lemma readSlugs_total : forall ls cur d L, layout cur ls = Some L -> exists d', readSlugsFile (nameOf cur) d ls = Ret d'.
Proof.
  induction ls as [|l ls IH]; intros cur d L; cbn [layout readSlugsFile]; [eauto|]. rewrite trim_spec.
  destruct (strip l) as [|a r] eqn:S; [apply IH|]. cbn [String.eqb]. rewrite !firstIs_cons. destruct (a =? "#")%char eqn:A1.
  { replace (a =? "[")%char with false by (apply Ascii.eqb_eq in A1; now subst). intros E. destruct cur as [s|]; cbn [nameOf].
    - replace (String.eqb (header s) "") with false by now destruct s. cbn [andb]. rewrite stuck_key. now apply (IH (Some s) _ L).
    - cbn [String.eqb andb]. now apply (IH None d L). }
  destruct (a =? "[")%char eqn:A2.
  - destruct (find _ sections) as [s|] eqn:Fd; [|discriminate]. intros E.
    apply find_some in Fd. destruct Fd as [_ Fd]. apply String.eqb_eq in Fd. rewrite <- Fd. now apply (IH (Some s) d L).
  - destruct cur as [s|]; [|discriminate]. destruct (layout (Some s) ls) as [L1|] eqn:E; [|discriminate].
    intros _. cbn [nameOf]. rewrite andb_false_r, stuck_key. now apply (IH (Some s) _ L1).
Qed.

Section FILE.
  Variables (text : string) (L : items) (fs : section -> list fml).
  Hypothesis HL : layout None (file_lines text) = Some L.
  Hypothesis ND : NoDup (declared L).
  Hypothesis HF : formulas_of false (inputsFirst L) fs.

  Definition linesNew (s : section) : list string := match s with SSysLive => ["0"%string] | s => linesOf s L end.
  Definition fsNew (s : section) : list fml := match s with SSysLive => [FFalse] | s => fs s end.
  Definition othersNew : items := map (pair SEnvTrans) (linesOf SEnvTrans L) ++ map (pair SEnvInit) (linesOf SEnvInit L) ++ map (pair SSysTrans) (linesOf SSysTrans L) ++
    map (pair SSysInit) (linesOf SSysInit L) ++ map (pair SEnvLive) (linesOf SEnvLive L) ++ [(SSysLive, "0"%string)].
  Definition Lnew : items := decls0 L ++ othersNew.

  Lemma items_tidy s ls : Forall tidy ls -> itemsOf s ls = map (pair s) (filter content ls).
  Proof. intros T. unfold itemsOf. rewrite <- (map_strip_tidy ls T). now rewrite map_map. Qed.
  Lemma new_file : exists text', falsificationFile text = Ret text' /\ layout None (file_lines text') = Some Lnew.
  Proof.
    unfold falsificationFile. rewrite getlines_spec. destruct (readSlugs_total (file_lines text) None emptyDict L HL) as (d & E). cbn [nameOf] in E. rewrite E. cbn [pybind].
    eexists. split; [reflexivity|]. destruct (readSlugs_spec (file_lines text) None emptyDict L d (FastSlowFile.file_lines_noNl _) HL E) as (add & A1 & A2 & A3 & _).
    set (d' := setLines d "[SYS_LIVENESS]" ["0"%string]).
    assert (T : forall s, Forall tidy (d' (header s)) /\ filter content (d' (header s)) = linesNew s).
    { assert (O : forall s, Forall tidy (d (header s)) /\ filter content (d (header s)) = linesOf s L) by (intros s; rewrite A1; cbn [emptyDict app]; rewrite A3, keyLines_header; auto).
      intros s. unfold d', setLines. destruct s; try apply O. cbn. split; [|reflexivity]. constructor; [|constructor]. split; [reflexivity|]. split; [reflexivity|]. now apply noNl_lit. }
    unfold writeSlugsFile. replace writeKeys with (map header order) by reflexivity.
    change (String.concat "" (map (fun l => (l ++ String "010" "")%string) ?ls)) with (unlines ls). rewrite file_lines_unlines.
    - rewrite layout_written by (intros s; eapply Forall_impl; [|apply T]; exact tidy_ok). f_equal. unfold order. cbn [flat_map]. rewrite !items_tidy by apply T.
      rewrite !(fun s => proj2 (T s)). unfold Lnew, decls0, othersNew, linesNew. cbn [map]. rewrite !app_nil_r, <- !app_assoc. reflexivity.
    - apply Forall_forall. intros l Hl. apply in_flat_map in Hl. destruct Hl as (k & Hk & Hl). apply in_map_iff in Hk. destruct Hk as (s & <- & _).
      destruct Hl as [<-|Hl]; [apply noNl_header|]. apply in_app_iff in Hl. destruct Hl as [Hl|[<-|[]]]; [|now apply noNl_lit].
      destruct (T s) as [X _]. rewrite Forall_forall in X. apply (X l Hl).
  Qed.
  Lemma others_new : Forall (fun p => formulaSection (fst p) = true) othersNew.
  Proof.
    unfold othersNew. rewrite !Forall_app. repeat split; try (apply Forall_forall; intros p Hp; apply in_map_iff in Hp; destruct Hp as (l & <- & _); reflexivity). repeat constructor.
  Qed.
  Lemma new_names : declared Lnew = declared (inputsFirst L) /\ outputs Lnew = outputs (inputsFirst L).
  Proof.
    destruct (decls_first (decls0 L) othersNew others_new) as [E1 E2]. destruct (decls_first (decls0 L) _ (filter_formulas L)) as [E3 E4].
    unfold Lnew. rewrite inputsFirst_split, E1, E2, E3, E4. auto.
  Qed.
  Lemma new_lines s : formulaSection s = true -> linesOf s Lnew = linesNew s.
  Proof.
    intros H. unfold Lnew, othersNew. rewrite linesOf_app, linesOf_D by auto. rewrite !linesOf_app, !linesOf_pair. destruct s; try discriminate H; cbn [sec_eqb app]; now rewrite ?app_nil_r.
  Qed.
  Lemma new_formulas : formulas_of false Lnew fsNew.
  Proof.
    intros s Hs. rewrite new_lines by auto. pose proof (HF s Hs) as H. rewrite linesOf_inputsFirst in H.
    assert (W : forall s' l f, gram (file_var (inputsFirst L) s') maxNumber false 0 f (words l) -> gram (file_var Lnew s') maxNumber false 0 f (words l)).
    { intros s' l f. apply gram_var_ext. intros w i. unfold file_var. destruct new_names as [-> ->]. auto. }
    destruct s; try discriminate Hs; cbn [fsNew linesNew]; try (eapply (F2_impl _ _ (W _)); exact H).
    constructor; [|constructor]. constructor.
  Qed.
  Lemma new_nodup : NoDup (declared Lnew).
  Proof. rewrite (proj1 new_names). now apply NoDup_inputsFirst. Qed.
  Lemma new_accepted ord text' : layout None (file_lines text') = Some Lnew -> exists c, initContext ord text' = POk c.
  Proof.
    intros El. pose proof new_nodup as N. assert (G : grammatical Lnew) by (apply (first_grammatical _ _ fsNew (decls_D L) others_new); apply new_formulas).
    apply (initContext_accepts ord text' Lnew El N). intros A s line B EL Hs. destruct (G A s line B EL Hs) as (f & Gf).
    assert (NDA : NoDup (declared A)) by (rewrite EL, declared_app in N; now apply NoDup_prefix in N).
    destruct (parse_accepts (declared A) (typesF A) (allowedF s) ord line f) as (b & P & _); [|exists b; exact P].
    apply (gram_var_ext (file_var A s)); auto. intros w i. now apply var_ok_file.
  Qed.
  Lemma new_game ord text' c : layout None (file_lines text') = Some Lnew -> initContext ord text' = POk c ->
    exists bs, c = finalContext Lnew bs /\ forall s, formulaSection s = true -> Forall2 sameFun (bs s) (fsNew s).
  Proof.
    intros El E. pose proof new_nodup as N.
    destruct (initContext_inv _ _ _ E) as (L0 & bs & El0 & _ & HV & Ec). rewrite El in El0. injection El0 as <-. exists bs. split; [exact Ec|].
    intros s' Hs. pose proof (HV s' Hs) as V. pose proof (new_formulas s' Hs) as F. revert V F. generalize (linesOf s' Lnew), (bs s'), (fsNew s').
    induction l as [|line ls IH]; intros l0 l1 V F; inversion V; inversion F; subst; constructor; auto.
    destruct (parse_accepts (declared Lnew) (typesF Lnew) (allowedF s') ord line y0) as (b & P & D); [apply (gram_var_ext (file_var Lnew s')); auto; intros w i; now apply var_ok_file|].
    unfold lineVal in *. match goal with H : parseFormula _ _ _ _ _ = _ |- _ => rewrite P in H; injection H as -> end. exact D.
  Qed.
  Lemma new_winning ord text' c : layout None (file_lines text') = Some Lnew -> initContext ord text' = POk c ->
    forall s, winning (game_of c) s <-> canFalsify (file_game (inputsFirst L) fs) s.
  Proof.
    intros El E s. assert (Hwf : wf c) by (eapply C41_accepted_wf; eauto). destruct (new_game ord text' c El E) as (bs & -> & SF).
    rewrite (winning_file Lnew bs fsNew SF s Hwf). apply winning_falsify; try reflexivity. apply new_names.
  Qed.
End FILE.
