(** * Proofs: tools/analyzeStuckAtConstant.py *)

From Coq Require Import String Ascii List Bool Arith NArith ZArith Lia.
From Coq Require Import DecimalString DecimalPos.
From Verif Require Import Synth FormulaSpec Parser Spec FileSpec Execute ParserProofs FileProofs PropsParser OutputProofs Explicit SymbolicProofs EstimatorText FastSlowFile Sem MonoProofs MinCoreProofs
  StructuredSpec Structured StructuredProofs StructuredTrans StructuredAccept PropsStructured StructGrammar StructParse StructReadProofs PropsStructParse StructFileSpec StructFile StructGameProofs StructFileProofs StructDeclProofs StructLineProofs StructTokenProofs StructConvProofs StructMain PropsStructFile StuckSpec Stuck.
Import ListNotations.
Local Open Scope list_scope.

(** ** Numbers *)

Lemma decimal_acc d : forall p, decimal (N.pos p) (NilEmpty.string_of_uint d) = N.pos (Pos.of_uint_acc d p).
Proof.
  induction d; intros p; [reflexivity|..]; cbn [NilEmpty.string_of_uint decimal Pos.of_uint_acc]; rewrite <- IHd; f_equal;
    match goal with |- context[digitVal ?a] => let v := eval vm_compute in (digitVal a) in change (digitVal a) with v end; lia.
Qed.
Lemma decimal_uint d : decimal 0 (NilEmpty.string_of_uint d) = Pos.of_uint d.
Proof.
  induction d; [reflexivity|..]; cbn [NilEmpty.string_of_uint decimal Pos.of_uint];
    match goal with |- decimal ?a _ = _ => let v := eval vm_compute in a in change a with v end; [exact IHd|apply decimal_acc..].
Qed.
Lemma showZ_numeral z : (0 <= z)%Z -> numeral (showZ z) (Z.to_N z).
Proof.
  destruct z as [|p|p]; intros H; [vm_compute; repeat split; discriminate| |lia]. unfold showZ, NilEmpty.string_of_int, numeral. cbn [Z.to_int Z.to_N].
  pose proof (Unsigned.of_to p) as E. split; [|split; [apply digits_string|now rewrite decimal_uint]].
  intros X. rewrite <- decimal_uint, X in E. discriminate E.
Qed.

(** ** Reading and writing the specification *)

Lemma stuck_key s : existsb (String.eqb (header s)) stuckKeys = true.
Proof. destruct s; reflexivity. Qed.
Lemma readSlugs_spec : forall ls cur d L d', Forall noNl ls -> layout cur ls = Some L -> readSlugsFile (nameOf cur) d ls = Ret d' ->
  exists add, (forall k, d' k = d k ++ add k) /\ (forall k, Forall tidy (add k)) /\ (forall k, filter content (add k) = keyLines k L) /\ (forall k, ~ In ""%string (add k)).
Proof.
  induction ls as [|l ls IH]; intros cur d L d' N; cbn [layout readSlugsFile].
  - intros E R. injection E as <-. apply (f_equal (fun r => match r with Ret q => q | _ => d end)) in R. subst d'. exists (fun _ => []). repeat split; auto. intros k. now rewrite app_nil_r.
  - inversion N as [|? ? N1 N2]; subst. rewrite trim_spec.
    assert (PUSH : forall s L1, firstIs "[" (strip l) = false -> strip l <> ""%string -> layout (Some s) ls = Some L1 ->
      readSlugsFile (header s) (pushLine d (header s) (strip l)) ls = Ret d' -> exists add, (forall k, d' k = d k ++ add k) /\ (forall k, Forall tidy (add k)) /\
      (forall k, filter content (add k) = if String.eqb k (header s) then (if content (strip l) then [strip l] else []) ++ keyLines k L1 else keyLines k L1) /\ (forall k, ~ In ""%string (add k))).
    { intros s L1 F NE E R. destruct (IH (Some s) (pushLine d (header s) (strip l)) L1 d' N2 E R) as (add & A1 & A2 & A3 & A4).
      exists (fun k => if String.eqb k (header s) then strip l :: add k else add k). repeat split.
      - intros k. rewrite A1. unfold pushLine. destruct (String.eqb k (header s)); auto. now rewrite <- app_assoc.
      - intros k. destruct (String.eqb k (header s)); auto. constructor; auto. split; [apply strip_idem|]. split; auto. now apply strip_noNl.
      - intros k. destruct (String.eqb k (header s)); [|apply A3]. cbn [filter]. destruct (content (strip l)); cbn [app]; now rewrite A3.
      - intros k. destruct (String.eqb k (header s)); [|apply A4]. intros [X|X]; [contradiction|now apply (A4 k)]. }
    destruct (strip l) as [|a r] eqn:S; [apply IH; auto|]. cbn [String.eqb].
    rewrite !firstIs_cons. destruct (a =? "#")%char eqn:A1.
    { replace (a =? "[")%char with false by (apply Ascii.eqb_eq in A1; now subst). intros E. destruct cur as [s|]; cbn [nameOf].
      - replace (String.eqb (header s) "") with false by now destruct s. cbn [andb]. rewrite stuck_key. intros R.
        destruct (PUSH s L) as (add & B1 & B2 & B3 & B4); auto; [apply Ascii.eqb_eq in A1; now subst|discriminate|]. exists add. repeat split; auto.
        intros k. rewrite B3. unfold content. cbn [String.eqb firstIs]. rewrite A1. cbn [orb negb app]. now destruct (String.eqb k (header s)).
      - cbn [String.eqb andb]. apply (IH None d L d' N2 E). }
    destruct (a =? "[")%char eqn:A2.
    + destruct (find _ sections) as [s|] eqn:Fd; [|discriminate]. intros E.
      apply find_some in Fd. destruct Fd as [_ Fd]. apply String.eqb_eq in Fd. rewrite <- Fd. apply (IH (Some s) d L d' N2 E).
    + destruct cur as [s|]; [|discriminate]. destruct (layout (Some s) ls) as [L1|] eqn:E; [|discriminate].
      intros X. injection X as <-. cbn [nameOf]. rewrite andb_false_r, stuck_key. intros R.
      destruct (PUSH s L1) as (add & B1 & B2 & B3 & B4); auto; [discriminate|]. exists add. repeat split; auto.
      intros k. rewrite B3, keyLines_cons, (String.eqb_sym (header s) k). unfold content. cbn [String.eqb firstIs]. rewrite A1. cbn [orb negb app]. reflexivity.
Qed.

Definition order : list section := [SInput; SOutput; SEnvTrans; SEnvInit; SSysTrans; SSysInit; SEnvLive; SSysLive].
Lemma layout_written (d : lineDict) secs : (forall s, Forall lineOK (d (header s))) -> forall cur,
  layout cur (flat_map (fun a => a :: d a ++ [""%string]) (map header secs)) = Some (flat_map (fun s => itemsOf s (d (header s))) secs).
Proof.
  intros OK. induction secs as [|s secs IH]; intros cur; [reflexivity|]. cbn [map flat_map app].
  rewrite layout_header, <- app_assoc, layout_ok by auto. cbn [app]. now rewrite layout_blank, IH.
Qed.
Lemma noNl_header s : noNl (header s).
Proof. apply noNl_lit. destruct s; reflexivity. Qed.
Lemma linesOf_app s a b : linesOf s (a ++ b) = linesOf s a ++ linesOf s b.
Proof. unfold linesOf. now rewrite filter_app, map_app. Qed.
Lemma written_spec (d : lineDict) : (forall s, Forall lineOK (d (header s))) ->
  exists L, layout None (file_lines (writeSlugsFile d)) = Some L /\ forall s, linesOf s L = map strip (filter contentS (d (header s))).
Proof.
  intros OK. exists (flat_map (fun s => itemsOf s (d (header s))) order). split.
  - unfold writeSlugsFile. replace writeKeys with (map header order) by reflexivity.
    change (String.concat "" (map (fun l => (l ++ String "010" "")%string) ?ls)) with (unlines ls). rewrite file_lines_unlines; [now apply layout_written|].
    apply Forall_forall. intros l Hl. apply in_flat_map in Hl. destruct Hl as (k & Hk & Hl). apply in_map_iff in Hk. destruct Hk as (s & <- & _).
    destruct Hl as [<-|Hl]; [apply noNl_header|]. apply in_app_iff in Hl. destruct Hl as [Hl|[<-|[]]]; [|now apply noNl_lit].
    specialize (OK s). rewrite Forall_forall in OK. now apply OK.
  - intros s. unfold order. cbn [flat_map]. rewrite !linesOf_app, !linesOf_items. destruct s; cbn [sec_eqb linesOf filter map app]; now rewrite ?app_nil_r.
Qed.
Lemma map_strip_tidy ls : Forall tidy ls -> map strip (filter contentS ls) = filter content ls.
Proof.
  induction 1 as [|l ls (T1 & T2 & T3) F IH]; [reflexivity|]. cbn [filter]. unfold contentS at 1. rewrite T1. destruct (content l); cbn [map]; now rewrite ?T1, IH.
Qed.
Lemma tidy_ok l : tidy l -> lineOK l.
Proof. intros (T1 & T2 & T3). split; auto. now rewrite T1. Qed.

(** ** The new lines *)

Lemma token_cons x : isWordToken x = true -> exists a r, x = String a r /\ isWordStart a = true.
Proof. destruct x as [|a r]; [discriminate|]. cbn. intros H. apply andb_prop in H. exists a, r. tauto. Qed.
Lemma start_noWs a : isWordStart a = true -> isWs a = false.
Proof. destruct a as [[] [] [] [] [] [] [] []]; vm_compute; congruence. Qed.
Lemma allChars_app P a b : allChars P (a ++ b)%string = allChars P a && allChars P b.
Proof. induction a as [|c a IH]; [reflexivity|]. cbn. now rewrite IH, andb_assoc. Qed.
Lemma token_prime next x : isWordToken x = true -> isWordToken (prime next x) = true.
Proof.
  destruct next; cbn [prime]; auto. destruct x as [|a x]; [discriminate|]. cbn [append isWordToken]. intros H. apply andb_prop in H. destruct H as [H1 H2]. rewrite H1, allChars_app, H2. reflexivity.
Qed.
Lemma token_free x : isWordToken x = true -> reserved x = false.
Proof.
  intros H. unfold reserved. destruct (existsb (String.eqb x) _) eqn:E; [|reflexivity]. apply existsb_exists in E. destruct E as (y & Hy & E). apply String.eqb_eq in E. subst y.
  cbn in Hy. repeat (destruct Hy as [<-|Hy]; [discriminate H|]). destruct Hy.
Qed.
Lemma words_token x : isWordToken x = true -> words x = [x].
Proof. intros H. destruct (token_cons x H) as (a & r & -> & _). apply words_noWs. now apply token_noWs. Qed.
Lemma strip_bang w : noWs w = true -> w <> ""%string -> strip ("! " ++ w) = ("! " ++ w)%string.
Proof.
  intros H NE. unfold strip. cbn [append list_ascii_of_string]. change (dropWs ("!"%char :: " "%char :: list_ascii_of_string w)) with ("!"%char :: " "%char :: list_ascii_of_string w).
  assert (D : dropWs (rev ("!"%char :: " "%char :: list_ascii_of_string w)) = rev ("!"%char :: " "%char :: list_ascii_of_string w)).
  { cbn [rev]. rewrite <- app_assoc. cbn [app]. assert (NE' : rev (list_ascii_of_string w) <> []).
    { destruct w; [congruence|]. cbn [list_ascii_of_string rev]. intros X. apply app_eq_nil in X. destruct X; discriminate. }
    assert (F : Forall (fun a => isWs a = false) (rev (list_ascii_of_string w))).
    { apply Forall_rev. clear - H. unfold noWs in H. induction w as [|a w IH]; cbn in *; constructor; apply andb_prop in H; destruct H; auto. now apply negb_true_iff. }
    destruct F as [|a l X _]; [congruence|]. cbn [app dropWs]. now rewrite X. }
  rewrite D, rev_involutive. cbn [string_of_list_ascii]. now rewrite string_of_list_ascii_of_string.
Qed.
Lemma noWs_blanks s : noWs s = true -> blanksOnly s.
Proof.
  unfold noWs, blanksOnly, occursIn. induction s as [|a s IH]; cbn; [intros _ b []|]. intros H b [<-|Hb] W; apply andb_prop in H; destruct H as [H1 H2]; [rewrite W in H1; discriminate|auto].
Qed.
Lemma noWs_line next x v : isWordToken x = true -> noWs (lineFor next x v) = true \/ v = VBool false.
Proof.
  intros H. destruct v as [[]|z]; [left|auto|left]; cbn [lineFor]; [now apply token_noWs, token_prime|]. rewrite !noWs_app, (token_noWs _ (token_prime next x H)), noWs_showZ. reflexivity.
Qed.
Lemma op_start a r : isWordStart a = true -> isOp (String a r) = false.
Proof.
  intros H. unfold isOp. destruct (String.eqb_spec (String a r) "$") as [E|_]; [injection E as -> _; discriminate H|].
  destruct (String.eqb_spec (String a r) "?") as [E|_]; [injection E as -> _; discriminate H|reflexivity].
Qed.
Lemma new_line next x v : isWordToken x = true -> tidy (lineFor next x v) /\ content (lineFor next x v) = true /\ blanksOnly (lineFor next x v) /\ plain_words (words (lineFor next x v)).
Proof.
  intros H. pose proof (token_prime next x H) as HP. destruct (token_cons _ HP) as (a & r & E & HA).
  assert (C : v = VBool false \/ noWs (lineFor next x v) = true /\ exists r', lineFor next x v = String a r').
  { destruct (noWs_line next x v H) as [W|W]; [right; split; auto|auto]. destruct v as [[]|z]; cbn [lineFor] in *; rewrite E in *; cbn [append]; eauto. discriminate W. }
  destruct C as [->|(W & r' & E')].
  - cbn [lineFor]. pose proof (token_noWs _ HP) as W. split; [split; [|split]|].
    + apply strip_bang; auto. rewrite E. discriminate.
    + reflexivity.
    + apply noNl_app; [now apply noNl_lit|now apply noWs_noNl].
    + split; [reflexivity|]. split.
      * intros b Hb Wb. unfold occursIn in Hb. cbn in Hb. destruct Hb as [<-|[<-|Hb]]; [discriminate Wb|reflexivity|]. now apply (noWs_blanks _ W).
      * apply plainB_spec. change ("! " ++ prime next x)%string with ("!" ++ String " " (prime next x))%string. rewrite words_sep, (words_token _ HP). change (words "!") with ["!"%string]. cbn [app plainB]. rewrite E, (op_start a r HA). reflexivity.
  - rewrite E' in *. destruct (start_line _ a r' eq_refl HA) as [S1 S2]. split; [split; [now apply strip_noWs|split; [exact S2|now apply noWs_noNl]]|]. split; [exact S1|]. split; [now apply noWs_blanks|].
    apply plainB_spec. rewrite words_noWs by exact W. cbn [plainB]. now rewrite (op_start a r' HA).
Qed.

(** ** The meaning of the new lines *)

Section LINES.
  Variables ins outs : list declaration.
  Let ds := ins ++ outs.
  Hypothesis HT : forall d, In d ds -> isWordToken (nameOfDecl d) = true /\ ~ In (nameOfDecl d) keyWords /\ ~ occursIn "@" (nameOfDecl d) /\ noQuote (nameOfDecl d) = true.
  Hypothesis ND : NoDup (map nameOfDecl ds).

  Lemma integers_nodup : NoDup (map fst (integers ds)).
  Proof.
    clear HT. revert ND. unfold integers. generalize ds. intros l. induction l as [|d l IH]; [constructor|]. cbn [map flat_map]. intros H. inversion H as [|? ? H1 H2]; subst.
    destruct d as [x|x mn mx]; cbn [app]; auto. cbn [map fst]. constructor; auto. intros X. apply H1. cbn [nameOfDecl]. apply in_map_iff in X. destruct X as ([y r] & <- & Hy).
    apply in_flat_map in Hy. destruct Hy as (d & Hd & Hy). destruct d as [z|z a b]; cbn in Hy; [destruct Hy|destruct Hy as [Hy|[]]]. injection Hy as -> _. apply in_map_iff. now exists (DInt y a b).
  Qed.

  Variables (A : list declaration) (d : declaration) (B : list declaration).
  Hypothesis ED : ds = A ++ d :: B.
  Lemma d_in : In d ds.
  Proof. rewrite ED. apply in_app_iff. right. now left. Qed.

  Lemma value_at p : okPos ins outs p -> exists VA v VB, fst p ++ snd p = VA ++ v :: VB /\ length A = length VA /\ Forall2 fits A VA /\ fits d v.
  Proof.
    intros [H1 H2]. assert (F : Forall2 fits ds (fst p ++ snd p)) by now apply Forall2_app.
    rewrite ED in F. apply Forall2_app_inv_l in F. destruct F as (VA & V & FA & FV & EV). inversion FV as [|? v ? VB Fv FB]; subst.
    exists VA, v, VB. repeat split; auto. eapply F2_length; eauto.
  Qed.
  Lemma hasValue_at p v VA w VB : fst p ++ snd p = VA ++ w :: VB -> length A = length VA -> hasValue (length A) v p = valueEqb w v.
  Proof. intros E L. unfold hasValue. rewrite E, L, nth_error_app2, Nat.sub_diag by lia. reflexivity. Qed.

  Lemma bool_meaning x next b : d = DBool x -> exists f, prefixLine ins outs (lineFor next x (VBool b)) f /\
    forall p q, okPos ins outs p -> okPos ins outs q -> holds f (valuation (bitState ins outs p) (bitState ins outs q)) = hasValue (length A) (VBool b) (if next then q else p).
  Proof.
    intros Ed. destruct (HT d d_in) as (T & _). rewrite Ed in T. cbn [nameOfDecl] in T.
    assert (NE : nth_error (allNames ins outs) (2 * total A + Nat.b2n next) = Some (prime next x)).
    { apply names_nth. fold ds. rewrite ED, flat_map_app. cbn [flat_map]. rewrite Ed at 1. cbn [namesOfBits app]. rewrite nth_error_app2; rewrite names_total; [now rewrite Nat.sub_diag|lia]. }
    assert (G : gram (fun w i => nth_error (allNames ins outs) i = Some w) maxNumber true 0 (FVar (2 * total A + Nat.b2n next)) [prime next x]).
    { apply g_var; auto. now apply token_free, token_prime. }
    assert (V : forall p q, okPos ins outs p -> okPos ins outs q -> valuation (bitState ins outs p) (bitState ins outs q) (2 * total A + Nat.b2n next) = hasValue (length A) (VBool true) (if next then q else p)).
    { intros p q Hp Hq. rewrite val_nth. set (r := if next then q else p). assert (Hr : okPos ins outs r) by (unfold r; now destruct next).
      replace ((if next then bitState ins outs q else bitState ins outs p) (total A)) with (bitState ins outs r (total A)) by (unfold r; now destruct next).
      destruct (value_at r Hr) as (VA & w & VB & EV & LA & FA & Fw). rewrite (hasValue_at r _ VA w VB EV LA). rewrite Ed in Fw. destruct w as [c|z]; [|destruct Fw].
      unfold bitState. fold ds. rewrite ED, EV, Ed. change (flat_map _ (combine (A ++ DBool x :: B) (VA ++ VBool c :: VB))) with (enc (A ++ DBool x :: B) (VA ++ VBool c :: VB)). rewrite enc_app by auto.
      destruct (dec_enc _ _ FA) as (_ & _ & L). rewrite app_nth2 by lia. rewrite L, Nat.sub_diag. cbn. now destruct c. }
    destruct b.
    - exists (FVar (2 * total A + Nat.b2n next)). split; [|exact V]. unfold prefixLine. cbn [lineFor]. now rewrite (words_token _ (token_prime next x T)).
    - exists (FNot (FVar (2 * total A + Nat.b2n next))). split.
      + unfold prefixLine. cbn [lineFor]. change ("! " ++ prime next x)%string with ("!" ++ String " " (prime next x))%string. rewrite words_sep, (words_token _ (token_prime next x T)). now apply g_not.
      + intros p q Hp Hq. assert (H : forall i e, holds (FNot (FVar i)) e = negb (e i)) by reflexivity. rewrite H, (V p q Hp Hq). clear H V G NE.
        set (r := if next then q else p). assert (Hr : okPos ins outs r) by (unfold r; now destruct next). destruct (value_at r Hr) as (VA & w & VB & EV & LA & FA & Fw).
        rewrite !(hasValue_at r _ VA w VB EV LA). rewrite Ed in Fw. destruct w as [[]|z]; [reflexivity..|destruct Fw].
  Qed.

  Definition noEq (s : string) : bool := allChars (fun a => negb (Ascii.eqb a "=")) s.
  Lemma noEq_app s t : noEq (s ++ t)%string = noEq s && noEq t.
  Proof. apply allChars_app. Qed.
  Lemma noEq_uint u : noEq (NilEmpty.string_of_uint u) = true.
  Proof. induction u; auto. Qed.
  Lemma noEq_showZ z : noEq (showZ z) = true.
  Proof. unfold showZ, NilEmpty.string_of_int. destruct (Z.to_int z); [apply noEq_uint|]. cbn. apply noEq_uint. Qed.
  Lemma noEq_token x : isWordToken x = true -> noEq x = true.
  Proof.
    assert (W : forall a, (isWordStart a || isDigit a) = true -> negb (Ascii.eqb a "=") = true) by (intros [[] [] [] [] [] [] [] []]; vm_compute; congruence).
    destruct x as [|a x]; [discriminate|]. cbn. intros H. apply andb_prop in H. destruct H as [H1 H2]. rewrite W by now rewrite H1. cbn [andb]. clear H1. induction x as [|b x IH]; [reflexivity|].
    cbn in *. apply andb_prop in H2. destruct H2 as [H2 H3]. now rewrite (W _ H2), IH.
  Qed.
  Lemma noEq_name w : In w (allNames ins outs) -> noEq w = true.
  Proof.
    intros H. apply in_all in H. destruct H as (v & next & Hv & ->). assert (noEq v = true).
    { apply in_flat_map in Hv. destruct Hv as (e & He & Hv). destruct (HT e He) as (T & _). apply noEq_token in T. destruct e as [y|y mn mx]; cbn [namesOfBits nameOfDecl] in *; [destruct Hv as [<-|[]]; exact T|].
      apply in_map_iff in Hv. destruct Hv as (i & <- & _). unfold bitName. rewrite !noEq_app, T, noEq_uint. destruct (Nat.eqb i 0); [|reflexivity]. rewrite !noEq_app, !noEq_showZ. reflexivity. }
    destruct next; cbn [prime]; auto. now rewrite noEq_app, H.
  Qed.
  Lemma gram_single bound loose m f ws : gram (fun w i => nth_error (allNames ins outs) i = Some w) bound loose m f ws -> forall a r, ws = [String a r] -> isWordStart a = true -> In (String a r) (allNames ins outs).
  Proof.
    intros H a r E HA. destruct H; try (injection E as -> E); try (injection E as <- <-); try (injection E as <- <- _); try (cbn in HA; discriminate HA); try discriminate E.
    all: injection E as ->; now apply nth_error_In in H0.
  Qed.

  Lemma occurs_at x mn mx i : occursIn "@" (bitName x mn mx i).
  Proof. unfold bitName, occursIn. induction x as [|a x IH]; [now left|]. cbn. now right. Qed.
  Lemma occurs_app a s t : occursIn a (s ++ t) -> occursIn a s \/ occursIn a t.
  Proof. unfold occursIn. induction s as [|b s IH]; cbn; [auto|]. intros [H|H]; auto. destruct (IH H); auto. Qed.

  Lemma not_bool x mn mx next : d = DInt x mn mx -> ~ In (prime next x) keyWords /\ ~ In (prime next x) (booleanWords ins outs).
  Proof.
    intros Ed. destruct (HT d d_in) as (T & K & A0 & Q). rewrite Ed in *. cbn [nameOfDecl] in *. split.
    { destruct next; [|exact K]. cbn [prime]. intros H. assert (L : lastIsPrime (x ++ "'") = true) by (pose proof (unprime_prime x true Q) as U; cbn [prime] in U; rewrite unprime_spec in U; now injection U).
      cbn in H. repeat (destruct H as [H|H]; [rewrite <- H in L; discriminate L|]). destruct H. }
    unfold booleanWords. intros H. apply in_flat_map in H. destruct H as (e & He & H). destruct (HT e He) as (T' & K' & A1 & Q').
    assert (X : nameOfDecl e = x -> exists a b, e = DInt x a b).
    { intros E. assert (e = DInt x mn mx); [|eauto]. fold ds in He. clear - E He ND ED Ed. rewrite ED in *. apply in_app_iff in He. rewrite map_app in ND. cbn [map nameOfDecl] in ND. apply NoDup_remove_2 in ND.
      destruct He as [He|[He|He]]; [|now rewrite <- He|]; elim ND; apply in_app_iff; [left|right]; rewrite <- E; now apply in_map. }
    destruct e as [y|y a b]; cbn [nameOfDecl] in *.
    - destruct H as [H|[H|[]]].
      + pose proof (unprime_prime x next Q) as U1. rewrite <- H in U1. pose proof (unprime_prime y false Q') as U2. cbn [prime] in U2. rewrite U2 in U1. injection U1 as U _. destruct (X U) as (? & ? & X'). discriminate X'.
      + pose proof (unprime_prime x next Q) as U1. rewrite <- H in U1. pose proof (unprime_prime y true Q') as U2. cbn [prime] in U2. rewrite U2 in U1. injection U1 as U _. destruct (X U) as (? & ? & X'). discriminate X'.
    - apply in_map_iff in H. destruct H as (i & H & _). pose proof (occurs_at y a b i) as O. rewrite H in O. destruct next; cbn [prime] in O; [|now elim A0]. apply occurs_app in O. destruct O as [O|[O|[]]]; [now elim A0|discriminate O].
  Qed.

  Lemma int_meaning x mn mx next z : d = DInt x mn mx -> (0 <= z)%Z -> (forall g, ~ prefixLine ins outs (lineFor next x (VInt z)) g) /\
    exists f, reads (booleanWords ins outs) (lineFor next x (VInt z)) f /\ forall e e' p q, okPos ins outs p -> okPos ins outs q ->
      truth (integers ds) (fun n y => lookup (allNames ins outs) (valuation e e') (prime n y)) (fun n y => integerAt ins outs (if n then q else p) y) false f = hasValue (length A) (VInt z) (if next then q else p).
  Proof.
    intros Ed Hz. destruct (HT d d_in) as (T & K & A0 & Q). assert (T0 := T). rewrite Ed in T, K, A0, Q. cbn [nameOfDecl] in T, K, A0, Q. destruct (not_bool x mn mx next Ed) as [NK NB].
    pose proof (token_prime next x T) as TP. destruct (token_cons _ TP) as (a & r & EP & HA).
    destruct (showZ_numeral z Hz) as (N1 & N2 & N3). split.
    - intros g G. unfold prefixLine in G. assert (W : noWs (lineFor next x (VInt z)) = true) by (destruct (noWs_line next x (VInt z) T) as [W|W]; [exact W|discriminate W]).
      assert (EL : lineFor next x (VInt z) = String a (r ++ "=" ++ showZ z)) by (cbn [lineFor]; rewrite EP; reflexivity). rewrite EL in *. rewrite words_noWs in G by exact W.
      pose proof (gram_single _ _ _ _ _ G _ _ eq_refl HA) as I. apply noEq_name in I. rewrite <- EL in I. cbn [lineFor] in I. rewrite !noEq_app, andb_false_r in I. discriminate I.
    - exists (SCalc (NumID (prime next x)) CEq (Numeral (Z.of_N (decimal 0 (showZ z))))). split.
      + exists (("numID", prime next x) :: sym "=" :: [("numeral", showZ z)])%string. split.
        * cbn [lineFor]. apply lex_word; [exact TP|reflexivity|now apply wt_num|]. cbn [append]. apply lex_symbol; [reflexivity..|].
          rewrite <- (sapp_nil (showZ z)) at 1. apply lex_number; [exact N1|exact N2|exact I|constructor].
        * do 7 (apply f_up; [lia|]). apply (f_compare [("numID", prime next x)]%string (syms ["="%string]) [("numeral", showZ z)]%string); [do 3 (apply n_up; [lia|]); apply n_id|apply c_eq|do 3 (apply n_up; [lia|]); apply n_numeral].
      + intros e e' p q Hp Hq. cbn [truth numValue]. rewrite (unprime_prime x next Q), orb_false_r, N3, Z2N.id by exact Hz.
        set (w := if next then q else p). assert (Hw : okPos ins outs w) by (unfold w; now destruct next). destruct (value_at w Hw) as (VA & v & VB & EV & LA & FA & Fv).
        rewrite (hasValue_at w _ VA v VB EV LA). rewrite Ed in Fv. destruct v as [c|y]; [destruct Fv|].
        unfold integerAt. fold ds. rewrite ED, EV, Ed, find_app by exact LA. pose proof integers_nodup as NI.
        rewrite find_none. 2:{ intros a' b' HA'. rewrite ED, Ed, integers_app, map_app in NI. cbn [integers flat_map app map fst] in NI.
          apply NoDup_remove_2 in NI. apply NI. apply in_app_iff. left. apply in_map_iff. exists (x, (a', b')). split; auto. now apply in_integers. }
        cbn [combine find fst]. rewrite String.eqb_refl. cbn [compareZ valueEqb]. reflexivity.
  Qed.

  Lemma line_meaning next v : fits d v -> (forall x mn mx, d = DInt x mn mx -> (0 <= mn)%Z) ->
    exists c, line_means ins outs (lineFor next (nameOfDecl d) v) c /\ sameMeaning ins outs c (fun p q => hasValue (length A) v (if next then q else p)).
  Proof.
    intros Fv Mn. assert (C : (exists x, d = DBool x) \/ exists x mn mx, d = DInt x mn mx) by (destruct d; eauto).
    destruct C as [(x & Ed)|(x & mn & mx & Ed)]; rewrite Ed in Fv |- *; destruct v as [b|z]; try (now destruct Fv); cbn [nameOfDecl].
    - destruct (bool_meaning x next b Ed) as (f & Hf & M). eexists. split; [apply (lm_prefix _ _ _ f Hf)|]. intros p q Hp Hq. now apply M.
    - cbn in Fv. specialize (Mn x mn mx Ed). destruct (int_meaning x mn mx next z Ed) as (NP & f & Hf & M); [lia|].
      eexists. split; [apply (lm_infix _ _ _ f NP Hf)|]. intros p q Hp Hq. now apply M.
  Qed.
End LINES.

(** ** The values of a variable *)

Definition valuesOf (d : declaration) : list value :=
  match d with DBool _ => [VBool false; VBool true] | DInt _ mn mx => map VInt (zrange mn mx) end.
Lemma valuesOf_spec d v : In v (valuesOf d) <-> fits d v.
Proof.
  destruct d as [x|x mn mx]; cbn [valuesOf fits].
  - destruct v as [[]|z]; cbn; intuition (try discriminate).
  - unfold zrange. rewrite map_map, in_map_iff. split.
    + intros (k & <- & Hk). apply in_seq in Hk. lia.
    + destruct v as [b|z]; [intros []|]. intros H. exists (Z.to_nat (z - mn)). split; [f_equal; lia|]. apply in_seq. lia.
Qed.
Definition entryOf (x : string) (v : value) : string * (string * string) := (showValue v, (lineFor true x v, lineFor false x v)).
Lemma values_spec line x es d : strip line = line -> valuesOfLine line = Ret (x, es) -> declares line d -> x = nameOfDecl d /\ es = map (entryOf x) (valuesOf d).
Proof.
  intros T E HD. unfold valuesOfLine in E. destruct (hasChar ":" line) eqn:Col.
  - destruct (map trim (splitChar ":" line)) as [|variable [|range [|]]] eqn:SP; try discriminate.
    destruct (splitDots3 range) as [|low [|high [|]]] eqn:SD; try discriminate.
    destruct (pyInt low) as [mn|] eqn:P1; [|discriminate]. destruct (pyInt high) as [mx|] eqn:P2; [|discriminate].
    destruct (Z.ltb_spec mx mn) as [LT|LE]; [discriminate|].
    assert (E' := f_equal (fun r => match r with Ret q => q | _ => (""%string, []) end) E). cbv beta iota in E'. injection E' as <- <-. clear E.
    destruct (splitChar ":" line) as [|p1 [|p2 [|]]] eqn:SC; try discriminate. cbn [map] in SP. injection SP as E1 E2. rewrite trim_spec in E1, E2.
    apply splitChar_two in SC. destruct SC as (EL & N1 & N2). apply splitDots3_two in SD. apply pyInt_spec in P1, P2.
    assert (DC : declares line (DInt variable mn mx)) by (rewrite <- E1; apply (d_int line p1 p2 low high); auto; now rewrite E2).
    rewrite <- (declares_unique _ _ _ DC HD). split; [reflexivity|]. cbn [valuesOf]. rewrite map_map. apply map_ext. intros z. unfold entryOf. cbn [showValue lineFor prime]. now rewrite sapp_assoc.
  - rewrite trim_spec, T in E. apply (f_equal (fun r => match r with Ret q => q | _ => (""%string, []) end)) in E. cbv beta iota in E.
    assert (DC : declares line (DBool line)) by (apply d_bool; intros O; apply hasChar_spec in O; congruence).
    rewrite <- (declares_unique _ _ _ DC HD). cbn [nameOfDecl valuesOf map]. injection E as <- <-. split; reflexivity.
Qed.

Lemma testValues_spec ord original cB cC r0 x vs : forall good, testValues ord original cB cC r0 (map (entryOf x) vs) = Ret good ->
  exists gv, good = map showValue gv /\ (forall v, In v vs -> exists r, checkRealizability ord (modifiedText original cB cC (lineFor true x v) (lineFor false x v)) = Ret r /\ (In v gv <-> r = r0)) /\ (forall v, In v gv -> In v vs).
Proof.
  induction vs as [|v vs IH]; intros good E; cbn [map testValues] in E.
  - apply (f_equal (fun r => match r with Ret q => q | _ => [] end)) in E. cbv beta iota in E. subst good. exists []. repeat split; auto. intros v [].
  - unfold entryOf at 1 in E. destruct (checkRealizability ord _) as [r| |] eqn:C; cbn [pybind] in E; try discriminate.
    destruct (testValues ord original cB cC r0 (map (entryOf x) vs)) as [rest| |]; cbn [pybind] in E; try discriminate.
    apply (f_equal (fun r => match r with Ret q => q | _ => [] end)) in E. cbv beta iota in E. destruct (IH rest eq_refl) as (gv & -> & H1 & H2). clear IH.
    destruct (Bool.eqb_spec r r0) as [R|R].
    + exists (v :: gv). split; [now subst good|]. split; [|intros w [<-|H]; [now left|right; auto]].
      intros w [<-|Hw]; [exists r; split; auto; split; auto; intros _; now left|].
      destruct (H1 w Hw) as (r' & C' & I'). exists r'. split; auto. split; [|intros X; right; now apply I'].
      intros [<-|X]; [congruence|now apply I'].
    + exists gv. split; [now subst good|]. split; [|intros w H; right; auto].
      intros w [<-|Hw]; [|now apply H1]. exists r. split; auto. split; [|now intros]. intros X. destruct (H1 v (H2 v X)) as (r' & C' & I'). rewrite C in C'. injection C' as ->. now apply I'.
Qed.

Lemma analyzeLines_spec ord original cB cC r0 ls : Forall tidy ls -> ~ In ""%string ls -> forall report, analyzeLines ord original cB cC r0 ls = Ret report ->
  Forall2 (fun line e => exists es, valuesOfLine line = Ret (fst e, es) /\ testValues ord original cB cC r0 es = Ret (snd e)) (filter content ls) report.
Proof.
  induction 1 as [|l ls (T1 & T2 & T3) F IH]; intros NE report E; cbn [analyzeLines] in E.
  - apply (f_equal (fun r => match r with Ret q => q | _ => [] end)) in E. cbv beta iota in E. subst report. constructor.
  - rewrite trim_spec, T1 in E. cbn [filter]. unfold content at 1. destruct (String.eqb_spec l "") as [->|_]; [elim NE; now left|]. cbn [orb].
    assert (NE' : ~ In ""%string ls) by (intros X; apply NE; now right).
    destruct (firstIs "#" l); cbn [negb]; [now apply IH|].
    destruct (valuesOfLine l) as [[x es]| |] eqn:V; cbn [pybind] in E; try discriminate.
    destruct (testValues ord original cB cC r0 es) as [good| |] eqn:G; cbn [pybind] in E; try discriminate.
    destruct (analyzeLines ord original cB cC r0 ls) as [rest| |] eqn:AN; cbn [pybind] in E; try discriminate.
    apply (f_equal (fun r => match r with Ret q => q | _ => [] end)) in E. cbv beta iota in E. subst report. constructor; [|now apply IH]. exists es. auto.
Qed.
