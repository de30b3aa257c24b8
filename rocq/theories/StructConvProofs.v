(** * Proofs: converted lines and limits *)

From Coq Require Import String Ascii List Bool Arith NArith ZArith Lia.
From Coq Require Import DecimalString.
From Verif Require Import FormulaSpec Parser Spec FileSpec ParserProofs FileProofs OutputProofs SymbolicProofs EstimatorText Sem MonoProofs MinCoreProofs AigMain
  StructuredSpec Structured StructuredProofs StructuredTrans StructuredAccept PropsStructured StructGrammar StructParse StructReadProofs StructFileSpec StructFile StructGameProofs StructFileProofs StructDeclProofs StructLineProofs StructTokenProofs.
Import ListNotations.
Local Open Scope list_scope.

(** ** Splitting at blanks *)

Lemma words_split s : blanksOnly s -> filter (fun a => negb (String.eqb a "")) (splitChar " " s) = words s.
Proof.
  induction s as [|a s IH]; intros B; [reflexivity|].
  assert (B' : blanksOnly s) by (intros c Hc; apply B; now right). specialize (IH B'). cbn [splitChar words].
  destruct (Ascii.eqb_spec a " ") as [->|NE]; [exact IH|].
  destruct (isWs a) eqn:W; [elim NE; apply B; [now left|exact W]|].
  destruct (splitChar " " s) as [|p ps] eqn:S; [now elim (splitChar_ne " " s)|]. cbn [filter String.eqb negb].
  destruct s as [|b s].
  - cbn in S. injection S as <- <-. reflexivity.
  - cbn [splitChar] in S. destruct (Ascii.eqb_spec b " ") as [->|NB].
    + injection S as <- <-. cbn [filter String.eqb negb] in IH. change (isWs " ") with true. cbv iota. f_equal. exact IH.
    + destruct (isWs b) eqn:WB; [elim NB; apply B'; [now left|exact WB]|].
      destruct (splitChar " " s) as [|q qs]; [discriminate|]. injection S as <- <-. cbn [filter String.eqb negb] in IH. rewrite <- IH. reflexivity.
Qed.
Lemma isValid_filter aps ts : isValidRecursiveSlugsProperty aps (filter (fun a => negb (String.eqb a "")) ts) = isValidRecursiveSlugsProperty aps ts.
Proof.
  unfold isValidRecursiveSlugsProperty. replace (filter (fun a => negb (String.eqb a "")) (filter (fun a => negb (String.eqb a "")) ts)) with (filter (fun a => negb (String.eqb a "")) ts); auto.
  induction ts as [|t ts IH]; [reflexivity|]. cbn [filter]. destruct (negb (String.eqb t "")) eqn:E; [|exact IH]. cbn [filter]. rewrite E. now f_equal.
Qed.
Lemma words_nonempty s : ~ In ""%string (words s).
Proof.
  induction s as [|a s IH]; [intros []|]. cbn [words]. destruct (isWs a); auto. destruct s as [|b s]; [intros [|[]]; discriminate|].
  destruct (isWs b); [intros [|X]; [discriminate|auto]|]. destruct (words (String b s)) as [|w ws]; [intros [|[]]; discriminate|]. intros [X|X]; [discriminate|]. apply IH. now right.
Qed.

Lemma unprime_prime v next : noQuote v = true -> unprime (prime next v) = (v, next).
Proof.
  unfold noQuote. intros H. destruct next; cbn [prime].
  - clear H. induction v as [|a v IH]; [reflexivity|]. cbn [append unprime]. rewrite IH. destruct v; reflexivity.
  - induction v as [|a v IH]; [reflexivity|]. cbn [allChars] in H. apply andb_prop in H. destruct H as [H1 H2]. cbn [unprime]. rewrite (IH H2). destruct v; auto.
    apply negb_true_iff in H1. now rewrite H1.
Qed.

Section CONV.
  Variables ins outs : list declaration.
  Let ds := ins ++ outs.
  Let N := flat_map namesOfBits ds.
  Let names := allNames ins outs.
  Let aps := flat_map apWords ds.
  Hypothesis HG : Forall good ds.

  Lemma base_noQuote v : In v N -> noQuote v = true.
  Proof.
    intros H. apply in_flat_map in H. destruct H as (d & Hd & Hv). rewrite Forall_forall in HG. apply HG in Hd. destruct d as [x|x mn mx]; cbn in *.
    - destruct Hv as [<-|[]]. apply Hd.
    - unfold bitNames in Hv. apply in_map_iff in Hv. destruct Hv as (i & <- & _). destruct Hd as (_ & _ & Q).
      unfold bitName. rewrite !noQuote_app, Q, noQuote_uint. destruct (Nat.eqb i 0); rewrite ?noQuote_app, ?noQuote_showZ; reflexivity.
  Qed.
  Lemma base_aps v : In v N -> In v aps.
  Proof. unfold N, aps. rewrite !in_flat_map. intros (d & Hd & Hv). exists d. split; auto. destruct d; cbn in *; tauto. Qed.
  Lemma aps_base x : In x aps -> exists v next, In v N /\ x = prime next v.
  Proof.
    unfold N, aps. rewrite in_flat_map. intros (d & Hd & Hv). destruct d as [y|y mn mx]; cbn [apWords] in Hv.
    - exists y. destruct Hv as [<-|[<-|[]]]; [exists false|exists true]; (split; [apply in_flat_map; exists (DBool y); cbn; auto|reflexivity]).
    - exists x, false. split; [|reflexivity]. apply in_flat_map. exists (DInt y mn mx). auto.
  Qed.
  Lemma names_aps w i : nth_error names i = Some w -> In (fst (unprime w)) aps.
  Proof.
    intros H. apply nth_error_In in H. apply in_all in H. destruct H as (v & next & Hv & ->). rewrite unprime_prime by now apply base_noQuote. cbn. now apply base_aps.
  Qed.

  Lemma prefix_copied line g : blanksOnly line -> prefixLine ins outs line g -> isValidRecursiveSlugsProperty aps (splitChar " " line) = true.
  Proof.
    intros B H. rewrite <- isValid_filter, words_split by exact B. apply (C52_copied _ _ _ _ _ aps H); [|apply words_nonempty].
    intros w i _ Hv. now apply (names_aps w i).
  Qed.

  Variable D : limits.
  Hypothesis HD : forall x mn mx, limitsOf D x = Some (mn, mx) -> In (DInt x mn mx) ds.

  Lemma numSignals_in a : forall next w, In w (numSignals D next a) -> In w names.
  Proof.
    induction a as [x|n|a IHa b IHb|a IHa b IHb|a IHa|a IHa b IHb]; intros next w; cbn [numSignals]; try (intros H; apply in_app_or in H; destruct H; eauto; fail); eauto; try easy.
    destruct (unprime x) as [y p]. destruct (limitsOf D y) as [[mn mx]|] eqn:E; [|intros []]. intros H. apply in_map_iff in H. destruct H as (v & <- & Hv).
    apply in_all. exists v, (p || next). split; auto. apply in_flat_map. exists (DInt y mn mx). split; auto.
  Qed.
  Lemma signals_in f : (forall x, In x (assigned f) -> In x aps) -> forall next w, supported D next f -> In w (signals D next f) -> In w names.
  Proof.
    induction f as [f IHf g IHg|f IHf g IHg|f IHf g IHg|f IHf g IHg|f IHf g IHg|wk f IHf g IHg|o f IHf| | |f IHf|x|a c b]; cbn [assigned supported signals]; intros HA next w HS Hw; try easy;
      try (destruct HS; apply in_app_or in Hw; destruct Hw; [apply (IHf (fun x Hx => HA x (in_or_app _ _ _ (or_introl Hx))) next)|apply (IHg (fun x Hx => HA x (in_or_app _ _ _ (or_intror Hx))) next)]; auto; fail); eauto.
    - destruct o; try easy; [eauto|]. destruct HS as [-> HS]. eauto.
    - destruct (aps_base x (HA x (or_introl eq_refl))) as (v & p & Hv & ->). pose proof (base_noQuote v Hv) as Q. rewrite unprime_prime in Hw by auto. destruct Hw as [<-|[]].
      apply in_all. eauto.
    - apply in_app_or in Hw. destruct Hw; eauto using numSignals_in.
  Qed.

  Definition sigVar (w : string) (i : nat) : Prop := names_var names w i /\ exists a r, w = String a r /\ isWordStart a = true.

  Lemma translate_gram line f b : reads aps line f -> translate D f = Ret b -> (N.of_nat (String.length b) < maxNumber)%N ->
    exists g, gram sigVar maxNumber false 0 g (words b) /\
      forall e, den e [] g = Some (truth D (fun p x => lookup names e (prime p x)) (intValue D names e) false f).
  Proof.
    intros HR E HL. destruct (reads_tokens _ _ _ HR) as [HT HA].
    assert (HS : supported D false f) by (apply translate_ok; eauto). unfold translate in E.
    destruct (simpleFormula D false (flatten (clean f))) as [ts| |] eqn:ES; cbn [pybind] in E; try discriminate.
    apply (f_equal (fun r => match r with Ret q => q | _ => ""%string end)) in E. cbv beta iota in E. subst b.
    pose proof (words_count (String.concat " " ts)) as LC. rewrite words_join in LC.
    destruct (translate_spec sigVar maxNumber names D f ts ES) as (g & Hg & Hd).
    - intros w Hw. destruct (signals_plain D f HT false w Hw) as [W1 W2]. split; auto. split; auto.
      destruct (first_index w names (signals_in f HA false w HS Hw)) as (i & Hi). exists i. split; [split; auto; eapply signals_start; eauto|]. intros e. now apply lookup_names_var.
    - lia.
    - exists g. rewrite words_join. split; auto.
  Qed.

  (** A line of the file. *)
  Lemma convert_file a b : tidy a -> content a = true -> blanksOnly a -> convertLine aps D a = Ret b ->
    b = a \/ ((forall g, ~ prefixLine ins outs a g) /\ exists f, reads aps a f /\ translate D f = Ret b).
  Proof.
    intros (T1 & T2 & T3) C B. unfold convertLine. rewrite trim_spec, T1. unfold content in C. apply negb_true_iff in C. rewrite C.
    destruct (isValidRecursiveSlugsProperty aps (splitChar " " a)) eqn:V; [intros E; injection E as <-; auto|].
    destruct (parseLTL aps a) as [f|] eqn:P; [|discriminate]. intros E. right. split.
    - intros g Hg. apply prefix_copied in Hg; auto. congruence.
    - exists f. split; auto. now apply parseLTL_spec.
  Qed.

  (** ** Limits *)

  Definition limOne (next : bool) (d : declaration) : list string :=
    match d with
    | DBool _ => []
    | DInt x mn mx =>
        if (2 ^ Z.of_nat (nofBits mn mx) =? mx - mn + 1)%Z then []
        else [String.concat " " (limitTokens (mx - mn + 1) 0 (map (prime next) (bitNames x mn mx)) ["0"%string])]
    end.
  Lemma limit_means next x mn mx l : In (DInt x mn mx) ds -> limOne next (DInt x mn mx) = [l] ->
    exists g, gram sigVar maxNumber false 0 g (words l) /\
      forall e, den e [] g = Some (mn + bitsValue (map (fun w => lookup names e (prime next w)) (bitNames x mn mx)) <=? mx)%Z.
  Proof.
    intros HI. assert (GD : good (DInt x mn mx)) by (rewrite Forall_forall in HG; now apply HG). destruct GD as (LE & HT & HQ).
    unfold limOne. destruct (Z.eqb_spec (2 ^ Z.of_nat (nofBits mn mx)) (mx - mn + 1)) as [|NE]; [discriminate|]. intros E. injection E as <-.
    destruct (bitsFor_spec (mx - mn) ltac:(lia)) as [B1 _]. change (bitsFor (mx - mn)) with (nofBits mn mx) in B1. set (L := (mx - mn + 1)%Z) in *.
    destruct (limit_spec sigVar maxNumber [] L (map (prime next) (bitNames x mn mx))
      (map (fun w e => lookup names e (prime next w)) (bitNames x mn mx)) 0 ["0"%string] (fun _ => false)) as (v & (g & Hg & Hd) & Hv).
    - apply vars_spec. intros w Hw. unfold okW.
      assert (Hw' := Hw). unfold bitNames in Hw'. rewrite map_map in Hw'. apply in_map_iff in Hw'. destruct Hw' as (i & Ew & _).
      assert (PW : plainWord w) by (rewrite <- Ew; apply bitName_plain; now right).
      assert (SW : exists a r, w = String a r /\ isWordStart a = true).
      { rewrite <- Ew. apply bit_start. right. destruct x as [|a x]; [discriminate|]. cbn [isWordToken] in HT. apply andb_prop in HT. destruct HT. eauto. }
      destruct PW as [W1 W2]. split; auto. split; auto.
      destruct (first_index w names) as (j & Hj). { apply in_all. apply in_map_iff in Hw. destruct Hw as (u & <- & Hu). exists u, next. split; auto. apply in_flat_map. exists (DInt x mn mx). auto. }
      exists j. split; [split; auto|]. intros e. now apply lookup_names_var.
    - apply G_false.
    - exists g. rewrite words_join. split; [exact Hg|]. intros e. specialize (Hd e). cbn in Hd. rewrite Hd, Hv. f_equal. rewrite andb_false_r, orb_false_r, bits_mod, map_length.
      assert (LN : length (bitNames x mn mx) = nofBits mn mx) by (unfold bitNames; now rewrite map_length, seq_length).
      change (2 ^ Z.of_nat 0)%Z with 1%Z. rewrite Z.div_1_r, LN, Z.mod_small by lia. unfold ev. rewrite map_map. unfold L.
      apply eq_iff_eq_true. rewrite Z.ltb_lt, Z.leb_le. lia.
  Qed.
  Lemma limOne_full next x mn mx bs : (mn <= mx)%Z -> limOne next (DInt x mn mx) = [] -> length bs = bitsFor (mx - mn) -> (mn + bitsValue bs <= mx)%Z.
  Proof.
    intros LE. unfold limOne. destruct (Z.eqb_spec (2 ^ Z.of_nat (nofBits mn mx)) (mx - mn + 1)) as [EQ|NE]; [|discriminate]. intros _ LB.
    pose proof (bitsValue_lt bs) as X. rewrite LB in X. change (bitsFor (mx - mn)) with (nofBits mn mx) in X. lia.
  Qed.
  Lemma limOne_blanks next d l : In d ds -> In l (limOne next d) -> blanksOnly l.
  Proof.
    intros Hd. destruct d as [x|x mn mx]; [intros []|]. assert (GD : good (DInt x mn mx)) by (rewrite Forall_forall in HG; now apply HG). destruct GD as (LE & HT & HQ).
    unfold limOne. destruct (_ =? _)%Z; [intros []|]. intros [<-|[]].
    assert (J : forall ts, Forall blanksOnly ts -> blanksOnly (String.concat " " ts)).
    { induction 1 as [|t ts Ht H IH]; [intros a []|]. cbn [String.concat]. destruct ts as [|u ts]; auto. intros a Ha W. apply occurs_app in Ha. destruct Ha as [Ha|Ha]; [now apply Ht|].
      apply occurs_app in Ha. destruct Ha as [[Ha|[]]|Ha]; [auto|now apply IH]. }
    assert (LT : forall L ws i ts, Forall blanksOnly ws -> Forall blanksOnly ts -> Forall blanksOnly (limitTokens L i ws ts)).
    { intros L. induction ws as [|w ws IH]; intros i ts Hw Ht; cbn [limitTokens]; auto. inversion Hw; subst. apply IH; auto.
      assert (B1 : blanksOnly "| !") by (intros a [<-|[<-|[<-|[]]]] W; discriminate || reflexivity). assert (B2 : blanksOnly "& !") by (intros a [<-|[<-|[<-|[]]]] W; discriminate || reflexivity).
      destruct (Z.testbit L (Z.of_nat i)); cbn [app]; auto. }
    assert (NW : forall s, noWs s = true -> blanksOnly s).
    { intros s H a Ha W. exfalso. unfold noWs in H. revert H Ha. induction s as [|b s IH]; cbn; [easy|]. intros H. apply andb_prop in H. destruct H as [H1 H2].
      intros [<-|X]; [rewrite W in H1; discriminate|now apply IH]. }
    apply J, LT.
    - apply Forall_forall. intros w Hw. apply in_map_iff in Hw. destruct Hw as (u & <- & Hu). unfold bitNames in Hu. apply in_map_iff in Hu. destruct Hu as (i & <- & _).
      apply NW. destruct next; cbn [prime]; [rewrite noWs_app|]; now rewrite noWs_bit.
    - constructor; [apply NW; reflexivity|constructor].
  Qed.
  Lemma sig_prefix f line : gram sigVar maxNumber false 0 f (words line) -> prefixLine ins outs line f.
  Proof.
    intros H. unfold prefixLine. apply (proj1 (gram_loosen _ _) 0 f (words line)) with (m' := 0) in H; auto.
    revert H. apply gram_var_ext. intros w i [[H _] _]. exact H.
  Qed.
  Lemma convert_limit next d l b : In d ds -> In l (limOne next d) -> convertLine aps D l = Ret b -> b = l.
  Proof.
    intros Hd Hl E. destruct d as [x|x mn mx]; [destruct Hl|].
    assert (E1 : limOne next (DInt x mn mx) = [l]) by (unfold limOne in *; destruct (_ =? _)%Z; [destruct Hl|destruct Hl as [<-|[]]; reflexivity]).
    destruct (limit_means next x mn mx l Hd E1) as (g & Hg & _).
    destruct (gram_line _ _ _ _ _ _ Hg) as [C F]. { intros w i H. apply H. }
    unfold convertLine in E. rewrite trim_spec in E. unfold contentS, content in C. apply negb_true_iff in C. rewrite C in E.
    apply sig_prefix in Hg. assert (B := limOne_blanks next _ _ Hd Hl).
    assert (V : isValidRecursiveSlugsProperty aps (splitChar " " (strip l)) = true).
    { eapply prefix_copied; [intros a Ha W; apply B; [now apply strip_in|exact W]|]. unfold prefixLine in *. rewrite words_strip. exact Hg. }
    rewrite V in E. now injection E.
  Qed.

  (** Meaning of all limits. *)
  Hypothesis ND : NoDup names.
  Variables st st' : state.
  Let e := valuation st st'.
  Definition bitsAt (next : bool) (n len : nat) : list bool := map (if next then st' else st) (seq n len).
  Definition accepted (line : string) (g : fml) : Prop := prefixLine ins outs line g.

  Lemma accepted_unique line g g' : accepted line g -> accepted line g' -> g = g'.
  Proof.
    apply gram_unique. intros w i j Hi Hj. destruct (nodup_var ins outs ND w i Hi) as [_ A]. destruct (nodup_var ins outs ND w j Hj) as [_ B].
    destruct (lt_eq_lt_dec i j) as [[LT|EQ]|LT]; auto; exfalso; [now apply (B i)|now apply (A j)].
  Qed.
  Lemma lim_decl nexts A d B : ds = A ++ d :: B -> forall gs, Forall2 accepted (flat_map (fun next => limOne next d) nexts) gs ->
    (forallb (fun g => holds g e) gs = true <-> forall next, In next nexts -> inV d (bitsAt next (total A) (size d))).
  Proof.
    intros ED. assert (Hd : In d ds) by (rewrite ED; apply in_app_iff; right; now left).
    induction nexts as [|next nexts IH]; intros gs F; cbn [flat_map] in F.
    - inversion F; subst. split; [intros _ next []|reflexivity].
    - apply Forall2_app_inv_l in F. destruct F as (g1 & g2 & F1 & F2 & ->). rewrite forallb_app, andb_true_iff, (IH g2 F2).
      assert (X : forallb (fun g => holds g e) g1 = true <-> inV d (bitsAt next (total A) (size d))).
      { destruct d as [x|x mn mx]; [inversion F1; subst; cbn; tauto|]. assert (GD : good (DInt x mn mx)) by (rewrite Forall_forall in HG; now apply HG). destruct GD as (LE & HT & HQ).
        destruct (limOne next (DInt x mn mx)) as [|l [|l2 rest]] eqn:E1.
        - inversion F1; subst. cbn [forallb inV]. split; auto. intros _. eapply limOne_full; eauto. unfold bitsAt. now rewrite map_length, seq_length.
        - inversion F1 as [|? g ? ? Ag F1']; subst. inversion F1'; subst. destruct (limit_means next x mn mx l Hd E1) as (g' & Hg & Hv).
          apply sig_prefix in Hg. rewrite (accepted_unique l g g' Ag Hg). cbn [forallb]. rewrite andb_true_r. unfold holds. rewrite Hv.
          pose proof (bits_at ins outs ND st st' next A (DInt x mn mx) B ED) as BA. cbn [namesOfBits size] in BA. cbn [inV size]. unfold bitsAt.
          rewrite <- BA. apply Z.leb_le.
        - unfold limOne in E1. destruct (_ =? _)%Z; discriminate. }
      rewrite X. split.
      + intros [H1 H2] n [<-|Hn]; auto.
      + intros H. split; [apply H; now left|]. intros n Hn. apply H. now right.
  Qed.
  Lemma lim_decls nexts l : forall A B gs, ds = A ++ l ++ B -> Forall2 accepted (flat_map (fun d => flat_map (fun next => limOne next d) nexts) l) gs ->
    (forallb (fun g => holds g e) gs = true <-> forall next, In next nexts -> inRange l (bitsAt next (total A) (total l))).
  Proof.
    induction l as [|d l IH]; intros A B gs ED F; cbn [flat_map] in F.
    - inversion F; subst. cbn. tauto.
    - apply Forall2_app_inv_l in F. destruct F as (g1 & g2 & F1 & F2 & ->). rewrite forallb_app, andb_true_iff.
      rewrite (lim_decl nexts A d (l ++ B) ED g1 F1). rewrite (IH (A ++ [d]) B g2); [|now rewrite <- app_assoc|exact F2].
      assert (TA : total (A ++ [d]) = total A + size d) by (unfold total; rewrite map_app, list_sum_app; cbn; lia).
      assert (TD : total (d :: l) = size d + total l) by reflexivity. rewrite TA, TD. cbn [inRange].
      assert (SP : forall next, bitsAt next (total A) (size d + total l) = bitsAt next (total A) (size d) ++ bitsAt next (total A + size d) (total l))
        by (intros next; unfold bitsAt; now rewrite seq_app, map_app).
      split.
      + intros [H1 H2] next Hn. rewrite SP, firstn_app_l, skipn_app_l by (unfold bitsAt; now rewrite map_length, seq_length). auto.
      + intros H. split; intros next Hn; specialize (H next Hn); rewrite SP, firstn_app_l, skipn_app_l in H by (unfold bitsAt; now rewrite map_length, seq_length); apply H.
  Qed.
End CONV.
