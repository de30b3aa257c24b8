(** * Proofs: tools/kResilientRealizabilityChecker.py *)

From Coq Require Import String Ascii List Bool Arith NArith Lia Permutation.
From Verif Require Import Synth FormulaSpec Parser Spec FileSpec Execute ParserProofs FileProofs PropsParser OutputProofs Explicit SymbolicProofs EstimatorText FastSlowFile Sem MonoProofs MinCoreProofs AigMain
  Structured StructuredProofs StructFile StructFileProofs StructDeclProofs StructLineProofs StructMain StuckProofs ResilientSpec Resilient FrontierProofs.
Import ListNotations.
Local Open Scope list_scope.

(** ** Vectors *)

Lemma vecEq_spec x : forall y, vecEq x y = true <-> x = y.
Proof.
  induction x as [|a x IH]; intros [|b y]; cbn [vecEq]; try (split; [discriminate|discriminate]); [tauto|].
  rewrite andb_true_iff, IH, Bool.eqb_true_iff. split; [intros [-> ->]; reflexivity|intros E; injection E; auto].
Qed.
Lemma vecLeq_below x : forall y, length x = length y -> (vecLeq x y = true <-> below x y).
Proof.
  unfold below. induction x as [|a x IH]; intros [|b y] E; try discriminate E; cbn [vecLeq]; [split; [constructor|reflexivity]|].
  injection E as E. rewrite andb_true_iff, (IH y E). split.
  - intros [H1 H2]. constructor; auto. destruct a, b; auto.
  - intros H. inversion H as [|? ? ? ? H1 H2]; subst. split; [destruct a; [now rewrite H1|now destruct b]|assumption].
Qed.
Lemma vecLeq_refl x : vecLeq x x = true.
Proof. induction x as [|a x IH]; cbn [vecLeq]; [reflexivity|]. rewrite IH. now destruct a. Qed.
Lemma vecLeq_trans x : forall y z, vecLeq x y = true -> vecLeq y z = true -> vecLeq x z = true.
Proof.
  induction x as [|a x IH]; intros [|b y] [|c z]; cbn [vecLeq]; auto; try discriminate.
  rewrite !andb_true_iff. intros [H1 H2] [H3 H4]. split; [destruct a, b, c; auto|]. now apply (IH y z).
Qed.
Lemma succ_facts x : forall a, In a (vecSuccessors x) -> length a = length x /\ vecLeq x a = true /\ vecLeq a x = false /\ S (count_occ Bool.bool_dec a false) = count_occ Bool.bool_dec x false.
Proof.
  induction x as [|b x IH]; intros a; cbn [vecSuccessors]; [intros []|]. intros H. apply in_app_or in H. destruct H as [H|H].
  - destruct b; [destruct H|]. destruct H as [<-|[]]. cbn [length vecLeq]. rewrite vecLeq_refl. repeat split.
  - apply in_map_iff in H. destruct H as (a' & <- & H). destruct (IH a' H) as (E1 & E2 & E3 & E4). cbn [length vecLeq]. rewrite E1, E2, E3.
    repeat split; [now destruct b|apply andb_false_r|]. cbn [count_occ]. rewrite <- E4. now destruct (Bool.bool_dec b false).
Qed.
Lemma succ_between x : forall y, length x = length y -> vecLeq x y = true -> y = x \/ exists a, In a (vecSuccessors x) /\ vecLeq a y = true.
Proof.
  induction x as [|b x IH]; intros [|c y] E; try discriminate E; [now left|]. injection E as E. cbn [vecLeq]. rewrite andb_true_iff. intros [H1 H2].
  cbn [vecSuccessors]. destruct b, c; try discriminate H1.
  - destruct (IH y E H2) as [->|(a & Ha & La)]; [now left|]. right. exists (true :: a). split; [apply in_or_app; right; now apply in_map|exact La].
  - right. exists (true :: x). split; [apply in_or_app; left; now left|exact H2].
  - destruct (IH y E H2) as [->|(a & Ha & La)]; [now left|]. right. exists (false :: a). split; [apply in_or_app; right; now apply in_map|exact La].
Qed.

(** ** Reading the file *)

(** The entries of [l] with mark [m]. *)
Fixpoint marked {A} (m : bool) (marks : list bool) (l : list A) : list A :=
  match marks, l with
  | b :: marks, a :: l => if Bool.eqb b m then a :: marked m marks l else marked m marks l
  | _, _ => []
  end.
Lemma marked_Forall {A} (P : A -> Prop) m : forall marks l, Forall P l -> Forall P (marked m marks l).
Proof. induction marks as [|b marks IH]; intros l F; cbn [marked]; [constructor|]. destruct F; [constructor|]. destruct (Bool.eqb b m); [constructor|]; auto. Qed.

Lemma resilient_key s : existsb (String.eqb (header s)) resilientKeys = true.
Proof. destruct s; reflexivity. Qed.
Lemma envtrans_key s : String.eqb (header s) "[ENV_TRANS]" = sec_eqb s SEnvTrans.
Proof. destruct s; reflexivity. Qed.
Definition added (marks : list bool) (L : items) (s : section) : list string :=
  match s with SEnvTrans => marked false marks (linesOf SEnvTrans L) | s => linesOf s L end.

Lemma readSpec_spec : forall ls cur next d e L, layout cur ls = Some L ->
  exists d' , readSpec (nameOf cur) next d e ls = Ret (d', e ++ marked true (limitMarks cur next ls) (linesOf SEnvTrans L)) /\
    (forall s, d' (header s) = d (header s) ++ added (limitMarks cur next ls) L s) /\ length (limitMarks cur next ls) = length (linesOf SEnvTrans L).
Proof.
  induction ls as [|l ls IH]; intros cur next d e L; cbn [layout readSpec limitMarks].
  - intros E. injection E as <-. exists d. cbn [linesOf filter map marked]. rewrite app_nil_r. repeat split. intros s. now destruct s; rewrite app_nil_r.
  - rewrite trim_spec. destruct (strip l) as [|a r] eqn:S; [apply IH|]. cbn [String.eqb]. rewrite !firstIs_cons.
    destruct (a =? "#")%char eqn:A1.
    { intros E. replace (next || String.prefix "## Variable limits" (String a r)) with (if String.prefix "## Variable limits" (String a r) then true else next) by (destruct next, (String.prefix _ _); reflexivity).
      now apply IH. }
    destruct (a =? "[")%char eqn:A2.
    { destruct (find _ sections) as [s|] eqn:Fd; [|discriminate]. intros E.
      apply find_some in Fd. destruct Fd as [_ Fd]. apply String.eqb_eq in Fd. rewrite <- Fd. now apply (IH (Some s)). }
    destruct cur as [s|]; [|discriminate]. destruct (layout (Some s) ls) as [L1|] eqn:E; [|discriminate]. intros X. injection X as <-.
    cbn [nameOf]. rewrite envtrans_key, resilient_key.
    assert (LO : forall s', linesOf s' ((s, String a r) :: L1) = (if sec_eqb s s' then [String a r] else []) ++ linesOf s' L1) by (intros s'; unfold linesOf; cbn [filter fst]; now destruct (sec_eqb s s')).
    destruct (next && sec_eqb s SEnvTrans) eqn:B.
    + apply andb_true_iff in B. destruct B as [-> B]. destruct s; try discriminate B.
      destruct (IH (Some SEnvTrans) false d (e ++ [String a r]) L1 E) as (d' & R & D & Len). cbn [nameOf header] in R. exists d'. cbn [nameOf header]. rewrite R. rewrite LO. cbn [sec_eqb app marked Bool.eqb length].
      rewrite <- app_assoc. split; [reflexivity|]. split; [|lia]. intros s. rewrite D. f_equal. destruct s; unfold added; rewrite ?LO; reflexivity.
    + destruct (IH (Some s) false (pushLine d (header s) (String a r)) e L1 E) as (d' & R & D & Len). cbn [nameOf] in R. exists d'. rewrite R.
      assert (MT : match s with SEnvTrans => next :: limitMarks (Some s) false ls | _ => limitMarks (Some s) false ls end = (if sec_eqb s SEnvTrans then [false] else []) ++ limitMarks (Some s) false ls).
      { destruct s; try reflexivity. cbn [sec_eqb] in B. rewrite andb_true_r in B. now rewrite B. }
      rewrite MT, LO. split; [|split].
      * destruct (sec_eqb s SEnvTrans); reflexivity.
      * intros s'. rewrite D. unfold pushLine. replace (String.eqb (header s') (header s)) with (sec_eqb s s') by (destruct s, s'; reflexivity).
        destruct (sec_eqb s s') eqn:Q.
        -- assert (s = s') by (destruct s, s'; try discriminate Q; reflexivity). subst s'. rewrite <- app_assoc. f_equal.
           destruct s; unfold added; rewrite ?LO; cbn [sec_eqb app marked Bool.eqb]; reflexivity.
        -- f_equal. destruct s'; unfold added; rewrite ?LO, ?Q; cbn [app]; reflexivity.
      * destruct (sec_eqb s SEnvTrans); cbn [app length]; lia.
Qed.
Lemma layout_tidy : forall ls cur L, Forall noNl ls -> layout cur ls = Some L -> Forall (fun p => tidy (snd p) /\ content (snd p) = true) L.
Proof.
  induction ls as [|l ls IH]; intros cur L F; cbn [layout].
  - intros E. injection E as <-. constructor.
  - inversion F as [|? ? F1 F2]; subst. destruct (strip l) as [|a r] eqn:S; [now apply IH|]. destruct (a =? "#")%char eqn:A1; [now apply IH|].
    destruct (a =? "[")%char eqn:A2; [destruct (find _ sections); [now apply IH|discriminate]|].
    destruct cur as [s|]; [|discriminate]. destruct (layout (Some s) ls) as [L1|] eqn:E; [|discriminate]. intros X. injection X as <-. constructor; [|eapply IH; eauto].
    cbn [snd]. split; [split; [rewrite <- S; apply strip_idem|split; [now rewrite firstIs_cons|rewrite <- S; now apply strip_noNl]]|].
    unfold content. cbn [String.eqb]. now rewrite firstIs_cons, A1.
Qed.

(** ** The formulas of the written file *)

Fixpoint keptOf {A} (which : list bool) (l : list A) : list A :=
  match l with
  | [] => []
  | a :: l => match which with true :: which => keptOf which l | _ => a :: keptOf (tl which) l end
  end.
Fixpoint droppedOf {A} (which : list bool) (l : list A) : list A :=
  match l with
  | [] => []
  | a :: l => match which with true :: which => a :: droppedOf which l | _ => droppedOf (tl which) l end
  end.
Definition prefixed (dropped : list string) (line : string) : string := fold_left (fun acc l => "| ! " ++ l ++ " " ++ acc)%string dropped line.
Definition excused (dropped : list fml) (goal : fml) : fml := fold_left (fun h f => FOr (FNot f) h) dropped goal.

Lemma splitTrans_spec : forall ls which acc, splitTrans which ls acc = (keptOf which ls, prefixed (droppedOf which ls) acc).
Proof.
  induction ls as [|l ls IH]; intros which acc; cbn [splitTrans keptOf droppedOf]; [reflexivity|].
  destruct which as [|[] which]; cbn [tl]; rewrite IH; reflexivity.
Qed.
Lemma prefixed_app dropped : forall acc line, (prefixed dropped acc ++ line)%string = prefixed dropped (acc ++ line)%string.
Proof.
  unfold prefixed. induction dropped as [|l dropped IH]; intros acc line; cbn [fold_left]; [reflexivity|]. rewrite IH. f_equal. now rewrite !sapp_assoc.
Qed.
Lemma words_excuse l acc : words ("| ! " ++ l ++ " " ++ acc)%string = "|"%string :: ("!"%string :: words l) ++ words acc.
Proof.
  change ("| ! " ++ l ++ " " ++ acc)%string with ("|" ++ String " " ("!" ++ String " " (l ++ String " " acc)))%string.
  rewrite !words_sep. reflexivity.
Qed.
Lemma prefixed_gram var bound loose lines fl : Forall2 (fun l f => gram var bound loose 0 f (words l)) lines fl ->
  forall line goal, gram var bound loose 0 goal (words line) -> gram var bound loose 0 (excused fl goal) (words (prefixed lines line)).
Proof.
  unfold prefixed, excused. induction 1 as [|l f lines fl G F IH]; intros line goal H; cbn [fold_left]; [exact H|].
  apply IH. rewrite words_excuse. apply g_or; [now apply g_not|exact H].
Qed.
Lemma prefixed_shape lines : forall line, prefixed lines line = line \/ exists r, prefixed lines line = String "|" r.
Proof.
  unfold prefixed. induction lines as [|l lines IH]; intros line; cbn [fold_left]; [now left|].
  destruct (IH ("| ! " ++ l ++ " " ++ line)%string) as [->|X]; right; auto. eexists. reflexivity.
Qed.
Lemma prefixed_noNl lines : forall line, Forall noNl lines -> noNl line -> noNl (prefixed lines line).
Proof.
  unfold prefixed. induction lines as [|l lines IH]; intros line F N; cbn [fold_left]; [exact N|]. inversion F; subst. apply IH; auto.
  apply noNl_app; [now apply noNl_lit|]. apply noNl_app; auto. apply noNl_app; [now apply noNl_lit|exact N].
Qed.
Lemma prefixed_line lines line : Forall noNl lines -> tidy line -> content line = true -> lineOK (prefixed lines line) /\ contentS (prefixed lines line) = true.
Proof.
  intros F T C. destruct (prefixed_shape lines line) as [->|(r & E)].
  - split; [now apply tidy_ok|]. unfold contentS. destruct T as [-> _]. exact C.
  - assert (W : isWs "|"%char = false) by reflexivity. destruct (strip_first "|" r W) as (r' & E').
    split; [split; [apply prefixed_noNl; auto; apply T|rewrite E, E'; reflexivity]|]. unfold contentS. rewrite E, E'. reflexivity.
Qed.

(** Formulas that have a value. *)
Definition valued (f : fml) : Prop := forall e, exists b, den e [] f = Some b.
Lemma den_strict var bound e :
  (forall m f ws, gram var bound false m f ws -> forall mem, (forall k, k < m -> exists b, nth_error mem k = Some (Some b)) -> exists b, den e mem f = Some b) /\
  (forall n i fs ws, gramL var bound false n i fs ws -> forall mem last, length mem = i -> (forall k, k < i -> exists b, nth_error mem k = Some (Some b)) ->
     (fs <> [] \/ exists b, last = Some b) -> exists b, denL e fs mem last = Some b).
Proof.
  apply (gram_mutind var bound false
    (fun m f ws => forall mem, (forall k, k < m -> exists b, nth_error mem k = Some (Some b)) -> exists b, den e mem f = Some b)
    (fun n i fs ws => forall mem last, length mem = i -> (forall k, k < i -> exists b, nth_error mem k = Some (Some b)) ->
     (fs <> [] \/ exists b, last = Some b) -> exists b, denL e fs mem last = Some b)).
  - intros. now exists true.
  - intros. now exists false.
  - intros. eexists. reflexivity.
  - intros m f ws _ IH mem H. destruct (IH mem H) as (b & E). exists (negb b). cbn [den]. now rewrite E.
  - intros m f g ws vs _ IH1 _ IH2 mem H. destruct (IH1 mem H) as (b & E). destruct (IH2 mem H) as (b' & E'). exists (b && b'). cbn [den]. now rewrite E, E'.
  - intros m f g ws vs _ IH1 _ IH2 mem H. destruct (IH1 mem H) as (b & E). destruct (IH2 mem H) as (b' & E'). exists (b || b'). cbn [den]. now rewrite E, E'.
  - intros m f g ws vs _ IH1 _ IH2 mem H. destruct (IH1 mem H) as (b & E). destruct (IH2 mem H) as (b' & E'). exists (xorb b b'). cbn [den]. now rewrite E, E'.
  - intros m w n fs ws _ _ Hl Hn _ IH mem _. rewrite den_buf. apply IH; [reflexivity|intros k Hk; lia|]. left. intros ->. now subst.
  - intros m w k _ _ Hk mem H. destruct (H k Hk) as (b & E). exists b. cbn [den]. now rewrite E.
  - intros n i mem last _ _ [X|X]; [contradiction|exact X].
  - intros n i f fs ws vs _ IH1 _ IH2 mem last Hl H _. cbn [denL]. destruct (IH1 mem H) as (b & E). rewrite E. apply IH2.
    + rewrite app_length. cbn [length]. lia.
    + intros k Hk. destruct (Nat.eq_dec k i) as [->|]; [exists b; rewrite nth_error_app2, <- Hl, Nat.sub_diag by lia; reflexivity|].
      rewrite nth_error_app1 by lia. apply H. lia.
    + right. eauto.
Qed.
Lemma gram_valued var bound f ws : gram var bound false 0 f ws -> valued f.
Proof. intros G e. apply (proj1 (den_strict var bound e) _ _ _ G). intros k Hk. lia. Qed.
Lemma excused_holds fl : Forall valued fl -> forall goal e, valued goal ->
  holds (excused fl goal) e = existsb (fun f => negb (holds f e)) fl || holds goal e.
Proof.
  unfold excused. induction 1 as [|f fl V F IH]; intros goal e Vg; cbn [fold_left existsb]; [reflexivity|].
  rewrite IH.
  - destruct (V e) as (b & E), (Vg e) as (b' & E'). assert (H1 : holds (FOr (FNot f) goal) e = negb b || b') by (unfold holds; cbn [den]; now rewrite E, E').
    assert (H2 : holds f e = b) by (unfold holds; now rewrite E). assert (H3 : holds goal e = b') by (unfold holds; now rewrite E').
    rewrite H1, H2, H3. destruct (existsb _ fl), b, b'; reflexivity.
  - intros e'. destruct (V e') as (b & E), (Vg e') as (b' & E'). cbn [den]. rewrite E, E'. eexists. reflexivity.
Qed.

(** The choice in terms of the kept and the dropped assumptions. *)
Lemma choose_forallb {A} (P : A -> bool) : forall marks (fl : list A) choice, 
  forallb (fun p => snd p || P (fst p)) (choose marks choice fl) = forallb P (marked true marks fl ++ keptOf choice (marked false marks fl)).
Proof.
  assert (AUX : forall l1 (a : A) l2, forallb P (l1 ++ a :: l2) = P a && forallb P (l1 ++ l2)).
  { intros l1 a l2. rewrite !forallb_app. cbn [forallb]. destruct (forallb P l1), (P a); reflexivity. }
  induction marks as [|m marks IH]; intros fl choice; cbn [choose marked]; [reflexivity|]. destruct fl as [|f fl]; [destruct m; reflexivity|].
  destruct m; cbn [Bool.eqb app forallb fst snd orb]; [now rewrite IH|]. destruct choice as [|[] choice]; cbn [keptOf tl forallb fst snd orb andb]; rewrite ?AUX, IH; reflexivity.
Qed.
Lemma choose_existsb {A} (P : A -> bool) : forall marks (fl : list A) choice, 
  existsb (fun p => snd p && P (fst p)) (choose marks choice fl) = existsb P (droppedOf choice (marked false marks fl)).
Proof.
  induction marks as [|m marks IH]; intros fl choice; cbn [choose marked]; [reflexivity|]. destruct fl as [|f fl]; [destruct m; reflexivity|].
  destruct m; cbn [Bool.eqb existsb fst snd andb orb]; [now rewrite IH|]. destruct choice as [|[] choice]; cbn [droppedOf tl existsb fst snd orb andb]; now rewrite IH.
Qed.
Lemma choose_below {A} : forall marks (fl : list A) c c', below c c' ->
  Forall2 (fun p q => fst p = fst q /\ (snd p = true -> snd q = true)) (choose marks c fl) (choose marks c' fl).
Proof.
  induction marks as [|m marks IH]; intros fl c c' B; cbn [choose]; [constructor|]. destruct fl as [|f fl]; [destruct m; constructor|].
  destruct m; [constructor; auto|]. destruct B as [|a b c c' H B]; [constructor; auto; apply IH; constructor|]. constructor; [auto|]. apply IH. exact B.
Qed.
Lemma F2_impl {A B} (R R' : A -> B -> Prop) : (forall a b, R a b -> R' a b) -> forall l l', Forall2 R l l' -> Forall2 R' l l'.
Proof. induction 2; constructor; auto. Qed.
Lemma F2_marked {A B} (R : A -> B -> Prop) m : forall marks l l', Forall2 R l l' -> Forall2 R (marked m marks l) (marked m marks l').
Proof. induction marks as [|b marks IH]; intros l l' F; cbn [marked]; [constructor|]. destruct F; [constructor|]. destruct (Bool.eqb b m); [constructor|]; auto. Qed.
Lemma F2_kept {A B} (R : A -> B -> Prop) : forall l l', Forall2 R l l' -> forall which, Forall2 R (keptOf which l) (keptOf which l').
Proof. induction 1 as [|a b l l' H F IH]; intros which; cbn [keptOf]; [constructor|]. destruct which as [|[] which]; auto. Qed.
Lemma F2_dropped {A B} (R : A -> B -> Prop) : forall l l', Forall2 R l l' -> forall which, Forall2 R (droppedOf which l) (droppedOf which l').
Proof. induction 1 as [|a b l l' H F IH]; intros which; cbn [droppedOf]; [constructor|]. destruct which as [|[] which]; auto. Qed.
Lemma kept_in {A} : forall l which (a : A), In a (keptOf which l) -> In a l.
Proof. induction l as [|b l IH]; intros which a; cbn [keptOf]; [auto|]. destruct which as [|[] which]; [intros [<-|H]|intros H|intros [<-|H]]; (now left) || (right; eapply IH; eauto). Qed.
Lemma dropped_in {A} : forall l which (a : A), In a (droppedOf which l) -> In a l.
Proof. induction l as [|b l IH]; intros which a; cbn [droppedOf]; [auto|]. destruct which as [|[] which]; [intros H|intros [<-|H]|intros H]; (now left) || (right; eapply IH; eauto). Qed.
Lemma marked_in {A} m : forall marks l (a : A), In a (marked m marks l) -> In a l.
Proof. induction marks as [|b marks IH]; intros l a; cbn [marked]; [intros []|]. destruct l as [|c l]; [auto|]. destruct (Bool.eqb b m); [intros [<-|H]|intros H]; (now left) || (right; eauto). Qed.

(** ** Games *)

Lemma history_out g g' f x : g_out g = g_out g' -> forall n, history g f x n = history g' f x n.
Proof. intros E. assert (M : forall a b, merge g a b = merge g' a b) by (intros; unfold merge; now rewrite E). induction n as [|n IH]; cbn [history]; rewrite ?IH, M; reflexivity. Qed.
Lemma realizable_impl g g' : g_out g = g_out g' -> (forall pi, objective g pi -> objective g' pi) -> realizable g -> realizable g'.
Proof.
  intros E H (f & W). exists f. intros x. specialize (H _ (W x)).
  assert (P : forall n, play g f x n = play g' f x n) by (intros n; unfold play; now rewrite (history_out g g' f x E)).
  intros I. rewrite <- P in I. destruct (H I) as (I' & S & L). split; [now rewrite <- P|]. split.
  - intros n A. rewrite <- !P. apply S. intros m Hm. rewrite !P. now apply A.
  - intros A B p Hp n. destruct (L (fun n => eq_trans (f_equal2 (g_safeE g') (P n) (P (Datatypes.S n))) (A n))) with (p := p) (n := n) as (m & Hm & Ht); auto.
    + intros q Hq k. destruct (B q Hq k) as (j & Hj & Ht). exists j. now rewrite !P.
    + exists m. now rewrite <- !P.
Qed.

Section ResilientGames.
  Variable L : items.
  Variable fs : section -> list fml.
  Variable marks : list bool.
  Lemma safe_below c c' s t : below c c' -> g_safeE (resilientGame L fs marks c) s t = true -> g_safeE (resilientGame L fs marks c') s t = true.
  Proof.
    intros B. unfold resilientGame. cbn [g_safeE]. rewrite !forallb_forall. intros H q Hq.
    destruct (Forall2_in_r _ _ _ q (choose_below marks (fs SEnvTrans) c c' B) Hq) as (p & Hp & E & I). specialize (H p Hp). rewrite E in H.
    destruct (snd p); [now rewrite I|]. cbn [orb] in H. rewrite H. apply orb_true_r.
  Qed.
  Lemma resilient_antitone c c' : below c c' -> realizable (resilientGame L fs marks c') -> realizable (resilientGame L fs marks c).
  Proof.
    intros B. apply realizable_impl; [reflexivity|]. intros pi O I. destruct (O I) as (I' & S & G). split; [exact I'|]. split.
    - intros n A. apply S. intros m Hm. apply (safe_below c c' _ _ B). now apply A.
    - intros A As p Hp. unfold resilientGame in Hp. cbn [g_liveG] in Hp. apply in_map_iff in Hp. destruct Hp as (goal & <- & Hg).
      intros n. destruct (G (fun n => safe_below c c' _ _ B (A n)) As) with (p := fun st st' => goal st st' || existsb (fun p => snd p && negb (holds (fst p) (valuation st st'))) (choose marks c' (fs SEnvTrans))) (n := n) as (m & Hm & Ht).
      { unfold resilientGame. cbn [g_liveG]. apply in_map_iff. exists goal. split; auto. }
      exists m. split; auto. apply orb_true_iff in Ht. destruct Ht as [Ht|Ht]; [rewrite Ht; reflexivity|]. apply orb_true_iff. right.
      apply existsb_exists in Ht. destruct Ht as (q & Hq & Ht). apply andb_true_iff in Ht. destruct Ht as [T1 T2].
      destruct (Forall2_in_r _ _ _ q (choose_below marks (fs SEnvTrans) c c' B) Hq) as (p & Hp & E & _).
      apply existsb_exists. exists p. split; auto. rewrite E, T2, andb_true_r.
      specialize (A m). unfold resilientGame in A. cbn [g_safeE] in A. rewrite forallb_forall in A. specialize (A p Hp). rewrite E in A.
      destruct (snd p); auto. cbn [orb] in A. now rewrite A in T2.
  Qed.
  (** The game of a file with the kept and the dropped assumptions. *)
  Lemma resilient_file Lw fw c : outputs Lw = outputs L ->
    (forall s, formulaSection s = true -> s <> SEnvTrans -> s <> SSysLive -> fw s = fs s) ->
    fw SEnvTrans = marked true marks (fs SEnvTrans) ++ keptOf c (marked false marks (fs SEnvTrans)) ->
    fw SSysLive = map (excused (droppedOf c (marked false marks (fs SEnvTrans)))) (fs SSysLive) ->
    Forall valued (fs SEnvTrans) -> Forall valued (fs SSysLive) ->
    (realizable (file_game Lw fw) <-> realizable (resilientGame L fs marks c)).
  Proof.
    intros HO HS HE HL VE VL.
    assert (Vd : Forall valued (droppedOf c (marked false marks (fs SEnvTrans)))).
    { rewrite Forall_forall in *. intros f Hf. apply VE. eapply marked_in, dropped_in; eauto. }
    assert (OUT : g_out (file_game Lw fw) = g_out (resilientGame L fs marks c)) by (unfold file_game, resilientGame; cbn [g_out]; now rewrite HO).
    assert (SE : forall s t, g_safeE (file_game Lw fw) s t = g_safeE (resilientGame L fs marks c) s t).
    { intros s t. unfold file_game, resilientGame. cbn [g_safeE]. now rewrite HE, (choose_forallb (fun f => holds f (valuation s t))). }
    assert (LG : forall f s t, In f (fs SSysLive) -> holds (excused (droppedOf c (marked false marks (fs SEnvTrans))) f) (valuation s t) =
       holds f (valuation s t) || existsb (fun p => snd p && negb (holds (fst p) (valuation s t))) (choose marks c (fs SEnvTrans))).
    { intros f s t Hf. rewrite Forall_forall in VL. rewrite excused_holds by auto. rewrite (choose_existsb (fun f => negb (holds f (valuation s t)))). apply orb_comm. }
    assert (I1 : g_initE (file_game Lw fw) = g_initE (resilientGame L fs marks c)) by (unfold file_game, resilientGame; cbn [g_initE]; rewrite HS; [reflexivity|reflexivity|discriminate|discriminate]).
    assert (I2 : g_initS (file_game Lw fw) = g_initS (resilientGame L fs marks c)) by (unfold file_game, resilientGame; cbn [g_initS]; rewrite HS; [reflexivity|reflexivity|discriminate|discriminate]).
    assert (SS : g_safeS (file_game Lw fw) = g_safeS (resilientGame L fs marks c)) by (unfold file_game, resilientGame; cbn [g_safeS]; rewrite HS; [reflexivity|reflexivity|discriminate|discriminate]).
    assert (LA : g_liveA (file_game Lw fw) = g_liveA (resilientGame L fs marks c)) by (unfold file_game, resilientGame; cbn [g_liveA]; rewrite HS; [reflexivity|reflexivity|discriminate|discriminate]).
    split; (apply realizable_impl; [congruence|]); intros pi O I.
    - rewrite <- I1 in I. destruct (O I) as (I' & S & G). split; [now rewrite <- I2|]. split.
      + intros n A. rewrite <- SS. apply S. intros m Hm. rewrite SE. now apply A.
      + intros A As p Hp. unfold resilientGame in Hp. cbn [g_liveG] in Hp. apply in_map_iff in Hp. destruct Hp as (goal & <- & Hg).
        unfold file_game in Hg. cbn [g_liveG] in Hg. apply in_map_iff in Hg. destruct Hg as (f & <- & Hf).
        intros n. destruct (G (fun n => eq_trans (SE _ _) (A n))) with (p := fun st st' => holds (excused (droppedOf c (marked false marks (fs SEnvTrans))) f) (valuation st st')) (n := n) as (m & Hm & Ht).
        * now rewrite LA.
        * unfold file_game. cbn [g_liveG]. rewrite HL, map_map. apply in_map_iff. exists f. split; auto.
        * exists m. split; auto. now rewrite <- LG.
    - rewrite I1 in I. destruct (O I) as (I' & S & G). split; [now rewrite I2|]. split.
      + intros n A. rewrite SS. apply S. intros m Hm. rewrite <- SE. now apply A.
      + intros A As p Hp. unfold file_game in Hp. cbn [g_liveG] in Hp. rewrite HL, map_map in Hp. apply in_map_iff in Hp. destruct Hp as (f & <- & Hf).
        intros n. destruct (G (fun n => eq_trans (eq_sym (SE _ _)) (A n))) with (p := fun st st' => holds f (valuation st st') || existsb (fun p => snd p && negb (holds (fst p) (valuation st st'))) (choose marks c (fs SEnvTrans))) (n := n) as (m & Hm & Ht).
        * now rewrite <- LA.
        * unfold resilientGame, file_game. cbn [g_liveG]. rewrite map_map. apply in_map_iff. exists f. split; auto.
        * exists m. split; auto. now rewrite LG.
  Qed.
End ResilientGames.

(** ** The written file *)

Lemma itemsOf_tidy s ls : Forall (fun l => tidy l /\ content l = true) ls -> itemsOf s ls = map (pair s) ls.
Proof.
  unfold itemsOf. induction 1 as [|l ls [T C] F IH]; [reflexivity|]. cbn [filter map]. unfold contentS at 1. destruct T as [T _]. rewrite T, C. cbn [map]. now rewrite IH, T.
Qed.
Lemma linesOf_pair s s' ls : linesOf s (map (pair s') ls) = if sec_eqb s' s then ls else [].
Proof. unfold linesOf. induction ls as [|l ls IH]; cbn [map filter fst]; [now destruct (sec_eqb s' s)|]. destruct (sec_eqb s' s); cbn [map snd]; now rewrite IH. Qed.
Lemma declared_pair s ls : declared (map (pair s) ls) = if formulaSection s then [] else flat_map (fun w => [w; (w ++ "'")%string]) ls.
Proof. unfold declared. induction ls as [|l ls IH]; cbn [map flat_map fst snd]; [now destruct s|]. rewrite IH. now destruct s. Qed.
Lemma outputs_pair s ls : outputs (map (pair s) ls) = if formulaSection s then [] else map (fun _ => match s with SOutput => true | _ => false end) ls.
Proof. unfold outputs. induction ls as [|l ls IH]; cbn [map flat_map fst snd]; [now destruct s|]. rewrite IH. now destruct s. Qed.
Lemma declared_formulas L : Forall (fun p => formulaSection (fst p) = true) L -> declared L = [] /\ outputs L = [].
Proof. induction 1 as [|[s l] L H F [IH1 IH2]]; [auto|]. cbn [declared outputs flat_map fst] in *. destruct s; try discriminate H; auto. Qed.

Definition decls0 (L : items) : items := map (pair SInput) (linesOf SInput L) ++ map (pair SOutput) (linesOf SOutput L).
Lemma inputsFirst_split L : inputsFirst L = decls0 L ++ filter (fun p => formulaSection (fst p)) L.
Proof. unfold inputsFirst, decls0. now rewrite <- app_assoc. Qed.
Lemma decls_first D Fm : Forall (fun p => formulaSection (fst p) = true) Fm -> declared (D ++ Fm) = declared D /\ outputs (D ++ Fm) = outputs D.
Proof. intros F. destruct (declared_formulas Fm F) as [E1 E2]. now rewrite declared_app, outputs_app, E1, E2, !app_nil_r. Qed.
Lemma filter_formulas L : Forall (fun p => formulaSection (fst p) = true) (filter (fun p : section * string => formulaSection (fst p)) L).
Proof. apply Forall_forall. intros p Hp. now apply filter_In in Hp. Qed.
Lemma linesOf_inputsFirst L s : linesOf s (inputsFirst L) = linesOf s L.
Proof.
  rewrite inputsFirst_split. unfold decls0. rewrite !linesOf_app, !linesOf_pair.
  assert (X : formulaSection s = true -> linesOf s (filter (fun p => formulaSection (fst p)) L) = linesOf s L).
  { intros H. unfold linesOf. f_equal. induction L as [|[s' l] L IH]; cbn [filter fst]; [reflexivity|].
    destruct (formulaSection s') eqn:E; cbn [filter fst]; [now rewrite IH|]. destruct (sec_eqb s' s) eqn:E'; auto. destruct s, s'; try discriminate E'; congruence. }
  assert (Y : formulaSection s = false -> linesOf s (filter (fun p => formulaSection (fst p)) L) = []).
  { intros H. destruct (linesOf s (filter _ L)) as [|l ls] eqn:E; auto. assert (I : In l (linesOf s (filter (fun p => formulaSection (fst p)) L))) by (rewrite E; now left).
    apply in_linesOf, filter_In in I. destruct I as [_ I]. cbn [fst] in I. congruence. }
  destruct s; cbn [sec_eqb app]; (rewrite X by reflexivity) || (rewrite Y, ?app_nil_r by reflexivity); reflexivity.
Qed.
Lemma NoDup_inputsFirst L : NoDup (declared L) -> NoDup (declared (inputsFirst L)).
Proof.
  rewrite inputsFirst_split. rewrite (proj1 (decls_first _ _ (filter_formulas L))). apply Permutation_NoDup. unfold decls0. rewrite declared_app, !declared_pair. cbn [formulaSection].
  induction L as [|[s l] L IH]; [reflexivity|]. unfold linesOf in *. cbn [declared flat_map filter fst snd] in *.
  destruct s; cbn [sec_eqb map snd flat_map app]; try exact IH.
  - now do 2 apply perm_skip.
  - rewrite <- !Permutation_middle. now do 2 apply perm_skip.
Qed.

(** A file with the declarations first. *)
Lemma first_grammatical D Fm fs : Forall (fun p => formulaSection (fst p) = false) D -> Forall (fun p => formulaSection (fst p) = true) Fm ->
  formulas_of false (D ++ Fm) fs -> grammatical (D ++ Fm).
Proof.
  intros HD HF F L1 s line L2 E Hs. assert (H : In line (linesOf s (D ++ Fm))) by (apply in_linesOf; rewrite E; apply in_or_app; right; now left).
  destruct (Forall2_in_l _ _ _ line (F s Hs) H) as (f & _ & G). exists f. revert G. apply gram_var_ext. intros w i [H1 H2].
  assert (X : exists F1, L1 = D ++ F1 /\ Forall (fun p => formulaSection (fst p) = true) F1).
  { destruct (app_eq_app _ _ _ _ E) as (l & [[E1 E2]|[E1 E2]]).
    - destruct l as [|p l]; [exists []; rewrite app_nil_r in E1; subst; rewrite app_nil_r; auto|].
      exfalso. injection E2 as <- _. rewrite E1, Forall_app in HD. destruct HD as [_ HD]. inversion HD as [|? ? X _]. cbn [fst] in X. congruence.
    - exists l. split; auto. rewrite E2, Forall_app in HF. now destruct HF. }
  destruct X as (F1 & -> & HF1). destruct (decls_first D F1 HF1) as [X1 X2]. destruct (decls_first D Fm HF) as [Y1 Y2].
  unfold file_var. rewrite X1, X2, <- Y1, <- Y2. auto.
Qed.

Section Written.
  Variable L : items.
  Variable fs : section -> list fml.
  Variable marks : list bool.
  Variable d : lineDict.
  Hypothesis Ltidy : Forall (fun p => tidy (snd p) /\ content (snd p) = true) L.
  Hypothesis Hd : forall s, d (header s) = added marks L s.
  Hypothesis ND : NoDup (declared L).
  Hypothesis HF : formulas_of false (inputsFirst L) fs.
  Variable c : list bool.

  Definition unm : list string := marked false marks (linesOf SEnvTrans L).
  Definition trans : list string := marked true marks (linesOf SEnvTrans L) ++ keptOf c unm.
  Definition goalLines : list string := map (prefixed (droppedOf c unm)) (linesOf SSysLive L).
  Definition copied : list section := [SInput; SOutput; SEnvLive; SEnvInit; SSysInit; SSysTrans].
  Definition others : items := map (pair SEnvLive) (linesOf SEnvLive L) ++ map (pair SEnvInit) (linesOf SEnvInit L) ++ map (pair SSysInit) (linesOf SSysInit L) ++
    map (pair SSysTrans) (linesOf SSysTrans L) ++ map (pair SEnvTrans) trans ++ map (pair SSysLive) (map strip goalLines).
  Definition Lw : items := decls0 L ++ others.

  Lemma tidy_lines s : Forall (fun l => tidy l /\ content l = true) (linesOf s L).
  Proof. apply Forall_forall. intros l Hl. apply in_linesOf in Hl. rewrite Forall_forall in Ltidy. apply (Ltidy _ Hl). Qed.
  Lemma tidy_trans : Forall (fun l => tidy l /\ content l = true) trans.
  Proof.
    pose proof (tidy_lines SEnvTrans) as T. rewrite Forall_forall in *. intros l Hl. apply T. unfold trans, unm in Hl. apply in_app_or in Hl.
    destruct Hl as [Hl|Hl]; [|apply kept_in in Hl]; eapply marked_in; eauto.
  Qed.
  Lemma dropped_noNl : Forall noNl (droppedOf c unm).
  Proof. pose proof (tidy_lines SEnvTrans) as T. rewrite Forall_forall in *. intros l Hl. apply dropped_in in Hl. unfold unm in Hl. apply marked_in in Hl. apply (T l Hl). Qed.
  Lemma goals_ok : Forall (fun l => lineOK l /\ contentS l = true) goalLines.
  Proof.
    pose proof (tidy_lines SSysLive) as T. pose proof dropped_noNl as N. unfold goalLines. rewrite Forall_forall in *. intros l Hl. apply in_map_iff in Hl. destruct Hl as (l0 & <- & Hl).
    destruct (T l0 Hl). apply prefixed_line; auto. now apply Forall_forall.
  Qed.
  Lemma lines_ok (ls : list string) : Forall (fun l => tidy l /\ content l = true) ls -> Forall lineOK ls.
  Proof. apply Forall_impl. intros l [T _]. now apply tidy_ok. Qed.
  Lemma goal_items : itemsOf SSysLive goalLines = map (pair SSysLive) (map strip goalLines).
  Proof.
    unfold itemsOf. rewrite map_map. f_equal. pose proof goals_ok as H. induction H as [|l ls [_ C] F IH]; [reflexivity|]. cbn [filter]. now rewrite C, IH.
  Qed.
  Lemma written : layout None (file_lines (inftyRobustSpecification d (marked true marks (linesOf SEnvTrans L)) c)) = Some Lw.
  Proof.
    unfold inftyRobustSpecification. rewrite splitTrans_spec.
    change "[ENV_TRANS]"%string with (header SEnvTrans). change "[SYS_LIVENESS]"%string with (header SSysLive).
    change ["[INPUT]"; "[OUTPUT]"; "[ENV_LIVENESS]"; "[ENV_INIT]"; "[SYS_INIT]"; "[SYS_TRANS]"]%string with (map header copied).
    rewrite !Hd. unfold added. fold unm.
    assert (EQ : flat_map (fun copyCategory => copyCategory :: d copyCategory ++ [""%string]) (map header copied) = flat_map (fun s => header s :: linesOf s L ++ [""%string]) copied).
    { unfold copied. cbn [map flat_map]. rewrite !Hd. reflexivity. }
    rewrite EQ. assert (EG : map (fun line => (prefixed (droppedOf c unm) "" ++ line)%string) (linesOf SSysLive L) = goalLines).
    { unfold goalLines. apply map_ext. intros l. now rewrite prefixed_app. }
    rewrite EG. set (all := flat_map _ copied ++ _). change (String.concat "" (map (fun l => (l ++ String "010" "")%string) all)) with (unlines all).
    assert (TN : forall ls, Forall (fun l => tidy l /\ content l = true) ls -> Forall noNl ls) by (intros ls; apply Forall_impl; intros l [T _]; apply T).
    rewrite file_lines_unlines.
    - unfold all. rewrite (app_assoc (marked true marks (linesOf SEnvTrans L)) (keptOf c unm)). fold trans.
      assert (CP : forall secs cur rest, layout cur (flat_map (fun s => header s :: linesOf s L ++ [""%string]) secs ++ rest) =
        match secs with [] => layout cur rest | _ => match layout (Some (last secs SInput)) rest with Some L' => Some (flat_map (fun s => map (pair s) (linesOf s L)) secs ++ L') | None => None end end).
      { induction secs as [|s secs IH]; intros cur rest; [reflexivity|]. cbn [flat_map app]. rewrite <- !app_assoc. rewrite layout_header, layout_ok by (apply lines_ok, tidy_lines).
        cbn [app]. rewrite layout_blank, IH, itemsOf_tidy by apply tidy_lines. destruct secs as [|s' secs]; [cbn [last flat_map app]; now rewrite app_nil_r|].
        change (last (s :: s' :: secs) SInput) with (last (s' :: secs) SInput). destruct (layout _ rest); [now rewrite <- app_assoc|reflexivity]. }
      rewrite CP. unfold copied at 1. rewrite layout_header, layout_ok by (apply lines_ok, tidy_trans). rewrite layout_header.
      rewrite <- (app_nil_r goalLines), layout_ok by (eapply Forall_impl; [|apply goals_ok]; intros l [X _]; exact X). cbn [layout]. rewrite app_nil_r.
      rewrite goal_items, itemsOf_tidy by apply tidy_trans. unfold Lw, decls0, others, copied. cbn [flat_map]. rewrite !app_nil_r, <- !app_assoc. reflexivity.
    - unfold all. apply Forall_app. split; [|constructor; [apply noNl_header|apply Forall_app; split; [|apply Forall_app; split; [|constructor; [apply noNl_header|]]]]].
      + apply Forall_forall. intros l Hl. apply in_flat_map in Hl. destruct Hl as (s & _ & [<-|Hl]); [apply noNl_header|]. apply in_app_or in Hl. destruct Hl as [Hl|[<-|[]]]; [|now apply noNl_lit].
        pose proof (TN _ (tidy_lines s)) as X. rewrite Forall_forall in X. auto.
      + apply marked_Forall. apply TN, tidy_lines.
      + apply Forall_forall. intros l Hl. apply kept_in, marked_in in Hl. pose proof (TN _ (tidy_lines SEnvTrans)) as X. rewrite Forall_forall in X. auto.
      + eapply Forall_impl; [|apply goals_ok]. intros l [[X _] _]. exact X.
  Qed.

  Lemma decls_D : Forall (fun p => formulaSection (fst p) = false) (decls0 L).
  Proof. unfold decls0. apply Forall_app. split; apply Forall_forall; intros p Hp; apply in_map_iff in Hp; destruct Hp as (l & <- & _); reflexivity. Qed.
  Lemma others_F : Forall (fun p => formulaSection (fst p) = true) others.
  Proof. unfold others. rewrite !Forall_app. repeat split; apply Forall_forall; intros p Hp; apply in_map_iff in Hp; destruct Hp as (l & <- & _); reflexivity. Qed.
  Lemma Lw_names : declared Lw = declared (inputsFirst L) /\ outputs Lw = outputs (inputsFirst L).
  Proof.
    destruct (decls_first (decls0 L) others others_F) as [E1 E2]. destruct (decls_first (decls0 L) _ (filter_formulas L)) as [E3 E4].
    unfold Lw. rewrite inputsFirst_split, E1, E2, E3, E4. auto.
  Qed.
  Lemma linesOf_D s : formulaSection s = true -> linesOf s (decls0 L) = [].
  Proof. intros H. unfold decls0. rewrite linesOf_app, !linesOf_pair. destruct s; try discriminate H; reflexivity. Qed.
  Lemma Lw_lines s : formulaSection s = true -> linesOf s Lw = match s with SEnvTrans => trans | SSysLive => map strip goalLines | s => linesOf s L end.
  Proof.
    intros H. unfold Lw, others. rewrite linesOf_app, linesOf_D by auto. rewrite !linesOf_app, !linesOf_pair. destruct s; try discriminate H; cbn [sec_eqb app]; now rewrite ?app_nil_r.
  Qed.
  Definition fw (s : section) : list fml :=
    match s with
    | SEnvTrans => marked true marks (fs SEnvTrans) ++ keptOf c (marked false marks (fs SEnvTrans))
    | SSysLive => map (excused (droppedOf c (marked false marks (fs SEnvTrans)))) (fs SSysLive)
    | s => fs s
    end.
  Lemma fw_formulas : formulas_of false Lw fw.
  Proof.
    intros s Hs. rewrite Lw_lines by auto. pose proof (HF s Hs) as H. rewrite linesOf_inputsFirst in H.
    assert (V : forall s' w i, file_var (inputsFirst L) s' w i -> file_var Lw s' w i) by (intros s' w i; unfold file_var; destruct Lw_names as [-> ->]; auto).
    assert (W : forall s' l f, gram (file_var (inputsFirst L) s') maxNumber false 0 f (words l) -> gram (file_var Lw s') maxNumber false 0 f (words l)) by (intros s' l f; apply gram_var_ext; apply V).
    destruct s; try discriminate Hs; cbn [fw]; try (eapply (F2_impl _ _ (W _)); exact H).
    - unfold trans, unm. apply Forall2_app; [|apply F2_kept]; apply F2_marked; eapply (F2_impl _ _ (W _)); exact H.
    - pose proof (HF SEnvTrans eq_refl) as HE. rewrite linesOf_inputsFirst in HE.
      assert (HDr : Forall2 (fun l f => gram (file_var Lw SSysLive) maxNumber false 0 f (words l)) (droppedOf c unm) (droppedOf c (marked false marks (fs SEnvTrans)))).
      { unfold unm. apply F2_dropped, F2_marked. refine (F2_impl _ _ _ _ _ HE). intros l f. apply gram_var_ext. intros w i Hv. apply V. destruct Hv as [H1 _]. split; [exact H1|reflexivity]. }
      unfold goalLines. rewrite map_map. induction H as [|l f ls l' G F IH]; cbn [map]; constructor; auto. rewrite words_strip. apply prefixed_gram; auto.
  Qed.
  Lemma oracle_answer ord : exists b, checkInftyRobustImplementability ord d (marked true marks (linesOf SEnvTrans L)) c = Ret b /\
    (b = true <-> realizable (resilientGame (inputsFirst L) fs marks c)).
  Proof.
    assert (NDw : NoDup (declared Lw)) by (rewrite (proj1 Lw_names); now apply NoDup_inputsFirst).
    assert (PW : plain_file Lw).
    { intros s line Hs Hl. apply in_linesOf in Hl. destruct (Forall2_in_l _ _ _ line (fw_formulas s Hs) Hl) as (f & _ & G). apply plainB_spec. apply (proj1 (gram_plainB _ _ _) _ _ _ G). }
    assert (GW : grammatical Lw) by (apply (first_grammatical _ _ fw decls_D others_F); apply fw_formulas).
    assert (LF : formulas_of true Lw fw).
    { intros s Hs. refine (F2_impl _ _ _ _ _ (fw_formulas s Hs)). intros l f G. now apply (proj1 (gram_loosen _ _) _ _ _ G). }
    destruct (C41_documented_file ord _ Lw written NDw GW PW) as (fw' & F' & H).
    assert (VAL : forall s, formulaSection s = true -> Forall valued (fs s)).
    { intros s Hs. apply Forall_forall. intros f Hf. destruct (Forall2_in_r _ _ _ f (HF s Hs) Hf) as (l & _ & G). now apply gram_valued in G. }
    assert (EQV : realizable (file_game Lw fw') <-> realizable (resilientGame (inputsFirst L) fs marks c)).
    { pose proof (formulas_unique Lw fw' fw NDw F' LF) as U. apply resilient_file; auto; try (rewrite U by reflexivity; reflexivity); [apply Lw_names|].
      intros s Hs N1 N2. rewrite U by auto. destruct s; try discriminate Hs; try reflexivity; contradiction. }
    unfold checkInftyRobustImplementability. destruct H as [[E R]|[E U]]; rewrite E.
    - exists true. split; [reflexivity|]. split; [intros _; now apply EQV|auto].
    - exists false. split; [reflexivity|]. split; [discriminate|]. intros R. apply EQV in R. destruct R as (f & W). destruct (U f) as (x & N). elim N. apply W.
  Qed.
End Written.
