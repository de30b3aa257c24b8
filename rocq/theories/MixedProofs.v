(** * Proofs: the specification that the resilience checker writes for levels *)

From Coq Require Import String Ascii List Bool Arith NArith ZArith Lia Permutation DecimalString.
From Verif Require Import Synth FormulaSpec Parser Spec FileSpec Execute ParserProofs FileProofs PropsParser OutputProofs Explicit SymbolicProofs EstimatorText FastSlowFile Sem MonoProofs MinCoreProofs AigMain
  StructuredSpec Structured StructuredProofs StructFile StructFileProofs StructDeclProofs StructLineProofs StructMain StuckProofs DecoderProofs ResilientSpec Resilient FrontierProofs ResilientProofs MixedSpec MixedGame Mixed MixedText.
Import ListNotations.
Local Open Scope list_scope.

(** ** Assumptions by level *)
Fixpoint pick {A} (P : nat -> bool) (lv : list nat) (l : list A) : list A :=
  match lv, l with
  | v :: lv, a :: l => if P v then a :: pick P lv l else pick P lv l
  | _, _ => []
  end.
Definition is0 (v : nat) : bool := Nat.eqb v 0.
Definition is1 (v : nat) : bool := Nat.eqb v 1.
Definition pos (v : nat) : bool := negb (Nat.eqb v 0).

Lemma splitLevels_spec : forall lv ls acc pre, splitLevels lv ls acc pre = (pick is0 lv ls, (acc ++ pick is1 lv ls, prefixed (pick pos lv ls) pre)).
Proof.
  induction lv as [|v lv IH]; intros ls acc pre; cbn [splitLevels pick]; [now rewrite app_nil_r|]. destruct ls as [|l ls]; [now rewrite app_nil_r|].
  destruct v as [|[|v]]; rewrite IH; unfold is0, is1, pos; cbn [Nat.eqb negb]; [reflexivity| |reflexivity]. now rewrite <- app_assoc.
Qed.
Lemma pick_in {A} P : forall lv (l : list A) a, In a (pick P lv l) -> In a l.
Proof. induction lv as [|v lv IH]; intros [|b l] a; cbn [pick]; try (intros []). destruct (P v); [intros [<-|H]; [now left|]|intros H]; right; eauto. Qed.
Lemma F2_pick {A B} (R : A -> B -> Prop) P : forall l l', Forall2 R l l' -> forall lv, Forall2 R (pick P lv l) (pick P lv l').
Proof. induction 1 as [|a b l l' H F IH]; intros [|v lv]; cbn [pick]; try constructor. destruct (P v); auto. Qed.

Lemma levels_zero {A} (Q : A -> Prop) : forall marks (fl : list A) lv, length lv = length (marked false marks fl) ->
  ((forall a, In a (withLevels marks lv fl) -> snd a = 0 -> Q (fst a)) <-> (forall f, In f (marked true marks fl ++ pick is0 lv (marked false marks fl)) -> Q f)).
Proof.
  induction marks as [|m marks IH]; intros fl lv E; cbn [withLevels marked]; [destruct lv; cbn; tauto|]. destruct fl as [|f fl]; [destruct m, lv; cbn; tauto|].
  cbn [marked] in E. destruct m; cbn [Bool.eqb app] in *.
  - specialize (IH fl lv E). split; intros H.
    + intros g [<-|Hg]; [apply (H (f, 0)); [now left|reflexivity]|]. apply IH; auto. intros a Ha. apply H. now right.
    + intros a [<-|Ha] Z; [apply H; now left|]. revert a Ha Z. apply IH. intros g Hg. apply H. now right.
  - destruct lv as [|v lv]; [discriminate E|]. injection E as E. specialize (IH fl lv E). cbn [hd tl pick]. unfold is0 at 1. destruct v as [|v]; cbn [Nat.eqb].
    + split; intros H.
      * intros g Hg. apply in_app_or in Hg. destruct Hg as [Hg|[<-|Hg]].
        -- apply IH; [intros a Ha; apply H; now right|]. apply in_or_app. now left.
        -- apply (H (f, 0)); [now left|reflexivity].
        -- apply IH; [intros a Ha; apply H; now right|]. apply in_or_app. now right.
      * intros a [<-|Ha] Z; [apply H; apply in_or_app; right; now left|]. revert a Ha Z. apply IH. intros g Hg. apply H.
        apply in_app_or in Hg. apply in_or_app. destruct Hg; [now left|right; now right].
    + split; intros H.
      * apply IH. intros a Ha. apply H. now right.
      * intros a [<-|Ha] Z; [discriminate Z|]. revert a Ha Z. now apply IH.
Qed.
Lemma levels_one {A} (P : A -> bool) : forall marks (fl : list A) lv, length lv = length (marked false marks fl) ->
  length (filter (fun a => (snd a =? 1)%nat && P (fst a)) (withLevels marks lv fl)) = length (filter P (pick is1 lv (marked false marks fl))).
Proof.
  induction marks as [|m marks IH]; intros fl lv E; cbn [withLevels marked]; [destruct lv; reflexivity|]. destruct fl as [|f fl]; [destruct m, lv; reflexivity|].
  cbn [marked] in E. destruct m; cbn [Bool.eqb] in *.
  - cbn [filter snd Nat.eqb andb]. now apply IH.
  - destruct lv as [|v lv]; [discriminate E|]. injection E as E. cbn [hd tl pick filter fst snd]. unfold is1 at 1. destruct (v =? 1)%nat; cbn [andb filter]; [|now apply IH].
    destruct (P f); cbn [length]; now rewrite (IH fl lv E).
Qed.
Lemma levels_pos {A} (Q : A -> Prop) : forall marks (fl : list A) lv, length lv = length (marked false marks fl) ->
  ((exists a, In a (withLevels marks lv fl) /\ snd a <> 0 /\ Q (fst a)) <-> (exists f, In f (pick pos lv (marked false marks fl)) /\ Q f)).
Proof.
  induction marks as [|m marks IH]; intros fl lv E; cbn [withLevels marked]; [destruct lv; cbn; firstorder|]. destruct fl as [|f fl]; [destruct m, lv; cbn; firstorder|].
  cbn [marked] in E. destruct m; cbn [Bool.eqb] in *.
  - rewrite <- (IH fl lv E). split; intros (a & Ha & N & Hq); [|exists a; split; [now right|auto]]. destruct Ha as [<-|Ha]; [elim N; reflexivity|]. eauto.
  - destruct lv as [|v lv]; [discriminate E|]. injection E as E. specialize (IH fl lv E). cbn [hd tl pick]. unfold pos at 1. destruct v as [|v]; cbn [Nat.eqb negb].
    + rewrite <- IH. split; intros (a & Ha & N & Hq); [|exists a; split; [now right|auto]]. destruct Ha as [<-|Ha]; [elim N; reflexivity|]. eauto.
    + split.
      * intros (a & [<-|Ha] & N & Hq); [exists f; split; [now left|exact Hq]|]. destruct (proj1 IH) as (g & Hg & Qg); [eauto|]. exists g. split; [now right|auto].
      * intros (g & [<-|Hg] & Qg); [exists (f, S v); split; [now left|split; [discriminate|exact Qg]]|]. destruct (proj2 IH) as (a & Ha & N & Qa); [eauto|]. exists a. split; [now right|auto].
Qed.

(** ** Lines *)
Lemma noNl_counter i : noNl (counterName i).
Proof. unfold counterName. apply noNl_app; [now apply noNl_lit|apply noNl_show]. Qed.
Lemma noNl_times n s : noNl s -> noNl (timesStr n s).
Proof. intros H. induction n as [|n IH]; cbn [timesStr]; [now apply noNl_lit|now apply noNl_app]. Qed.
Lemma noNl_join l : Forall noNl l -> noNl (String.concat " " l).
Proof.
  induction 1 as [|a l H F IH]; [now apply noNl_lit|]. destruct l as [|b l]; [exact H|].
  change (String.concat " " (a :: b :: l)) with (a ++ " " ++ String.concat " " (b :: l))%string. apply noNl_app; auto. apply noNl_app; auto. now apply noNl_lit.
Qed.
Lemma noNl_smaller r : forall p, noNl (recurseSmaller r p).
Proof.
  induction p as [|p IH]; cbn [recurseSmaller]; [now apply noNl_lit|].
  destruct (Nat.testbit r p); (apply noNl_app; [now apply noNl_lit|]); (apply noNl_app; [apply noNl_counter|]); (apply noNl_app; [now apply noNl_lit|exact IH]).
Qed.
Lemma noNl_counterIs nb v : noNl (counterIs nb v).
Proof.
  unfold counterIs. apply noNl_app; [now apply noNl_times, noNl_lit|]. apply noNl_join. apply Forall_app. split; [|constructor; [now apply noNl_lit|constructor]].
  apply Forall_forall. intros s Hs. apply in_map_iff in Hs. destruct Hs as (i & <- & _). apply noNl_app; [|apply noNl_counter]. destruct (nth i _ false); now apply noNl_lit.
Qed.
Definition lineS (l : string) : Prop := lineOK l /\ contentS l = true.
Lemma line_first a r : isWs a = false -> (a =? "[")%char = false -> (a =? "#")%char = false -> noNl (String a r) -> lineS (String a r).
Proof.
  intros W A1 A2 N. destruct (strip_first a r W) as (r' & E). split; [split; [exact N|]|].
  - rewrite E, firstIs_cons. exact A1.
  - unfold contentS, content. rewrite E, firstIs_cons. cbn [String.eqb orb]. now rewrite A2.
Qed.
Lemma line_tidy l : tidy l -> content l = true -> lineS l.
Proof. intros T C. split; [now apply tidy_ok|]. unfold contentS. destruct T as [-> _]. exact C. Qed.
Lemma times_S n s : timesStr (S n) s = (s ++ timesStr n s)%string.
Proof. reflexivity. Qed.

Lemma nodup_map_app {A B} (f : A -> B) l l' : NoDup (map f l) -> NoDup (map f l') -> (forall a b, In a l -> In b l' -> f a <> f b) -> NoDup (map f (l ++ l')).
Proof.
  intros N N' H. induction l as [|a l IH]; cbn [app map] in *; [exact N'|]. inversion N as [|? ? N1 N2]; subst. constructor.
  - rewrite map_app. intros X. apply in_app_or in X. destruct X as [X|X]; [contradiction|]. apply in_map_iff in X. destruct X as (b & E & Hb). apply (H a b); auto. now left.
  - apply IH; auto. intros x y Hx. apply H. now right.
Qed.
Lemma F2_same {A B C} (R : B -> C -> Prop) (f : A -> B) (g : A -> C) (l : list A) : (forall a, In a l -> R (f a) (g a)) -> Forall2 R (map f l) (map g l).
Proof. induction l as [|a l IH]; intros H; cbn [map]; constructor; [apply H; now left|apply IH; intros; apply H; now right]. Qed.
Lemma concat_words l : concat (map words l) = flat_map words l.
Proof. induction l as [|a l IH]; cbn [map concat flat_map]; congruence. Qed.

(** The variables of the counter. *)
Lemma showNat_noWs i : noWs (showNat i) = true.
Proof.
  generalize (digits_string (Nat.to_uint i)). unfold showNat, noWs. generalize (NilEmpty.string_of_uint (Nat.to_uint i)). induction s as [|a s IH]; [reflexivity|].
  cbn [allDigits allChars]. rewrite !andb_true_iff. intros [H1 H2]. split; auto. clear - H1. destruct a as [[] [] [] [] [] [] [] []]; solve [reflexivity|discriminate H1].
Qed.
Lemma counter_words i : words (counterName i) = [counterName i] /\ words (counterName i ++ "'") = [(counterName i ++ "'")%string].
Proof.
  pose proof (showNat_noWs i) as D.
  unfold counterName. split.
  - change ("_ResilienceCounter_" ++ showNat i)%string with (String "_" ("ResilienceCounter_" ++ showNat i)). apply words_noWs.
    unfold noWs in *. change (String "_" ("ResilienceCounter_" ++ showNat i)) with ("_ResilienceCounter_" ++ showNat i)%string. rewrite allChars_app, D. reflexivity.
  - change (("_ResilienceCounter_" ++ showNat i) ++ "'")%string with (String "_" (("ResilienceCounter_" ++ showNat i) ++ "'")). apply words_noWs.
    unfold noWs in *. change (String "_" (("ResilienceCounter_" ++ showNat i) ++ "'")) with (("_ResilienceCounter_" ++ showNat i) ++ "'")%string. rewrite !allChars_app, D. reflexivity.
Qed.
Lemma counter_reserved i : reserved (counterName i) = false /\ reserved (counterName i ++ "'") = false.
Proof. split; reflexivity. Qed.
Lemma counter_strip i : strip (counterName i) = counterName i.
Proof.
  apply strip_noWs. unfold counterName, noWs. rewrite allChars_app. pose proof (showNat_noWs i) as D. unfold noWs in D. now rewrite D.
Qed.
Lemma sapp_inj p : forall a b : string, (p ++ a)%string = (p ++ b)%string -> a = b.
Proof. induction p as [|c p IH]; intros a b E; [exact E|]. injection E as E. now apply IH. Qed.
Lemma counter_inj i j : counterName i = counterName j -> i = j.
Proof. intros E. apply sapp_inj in E. now apply showNat_inj. Qed.

(** ** The written file *)
Section WrittenM.
  Variable L : items.
  Variable fs : section -> list fml.
  Variable marks : list bool.
  Variable d : lineDict.
  Hypothesis Ltidy : Forall (fun p => tidy (snd p) /\ content (snd p) = true) L.
  Hypothesis Hd : forall s, d (header s) = added marks L s.
  Hypothesis ND : NoDup (declared L).
  Hypothesis Fresh : forall w, In w (declared L) -> String.prefix "_ResilienceCounter_" w = false.
  Hypothesis HF : formulas_of false (inputsFirst L) fs.
  Hypothesis LenM : length marks = length (linesOf SEnvTrans L).
  Variable lv : list nat.
  Hypothesis Llv : length lv = unmarked marks.
  Variables nb k : nat.
  Hypothesis kPos : 1 <= k.
  Hypothesis kBits : k < 2 ^ nb.

  Definition unmM : list string := marked false marks (linesOf SEnvTrans L).
  Definition ins : list string := linesOf SInput L.
  Definition outs : list string := linesOf SOutput L.
  Definition names : list string := map counterName (seq 0 nb).
  Definition liveLine (a : string) : string := (timesStr nb "| " ++ String.concat " " names ++ " " ++ a)%string.
  Definition zeroLine : string := (timesStr nb "& " ++ String.concat " " (map (fun i => ("! " ++ counterName i ++ "'")%string) (seq 0 nb) ++ ["1"%string]))%string.
  Definition newLines (s : section) : list string :=
    match s with
    | SOutput => outs ++ names
    | SInput => ins
    | SEnvInit => linesOf SEnvInit L
    | SEnvLive => map liveLine (linesOf SEnvLive L)
    | SSysInit => linesOf SSysInit L ++ map (fun i => ("! " ++ counterName i)%string) (seq 0 nb)
    | SEnvTrans => marked true marks (linesOf SEnvTrans L) ++ pick is0 lv unmM ++ exceedLines nb k (pick is1 lv unmM)
    | SSysTrans => linesOf SSysTrans L ++ accumulateLines nb k (pick is1 lv unmM)
    | SSysLive => map (prefixed (pick pos lv unmM)) (linesOf SSysLive L) ++ [prefixed (pick pos lv unmM) zeroLine]
    end.
  Definition orderM : list section := [SOutput; SInput; SEnvInit; SEnvLive; SSysInit; SEnvTrans; SSysTrans].
  Lemma lines_eq : mixedRobustLines nb d (marked true marks (linesOf SEnvTrans L)) lv k =
    flat_map (fun s => header s :: newLines s ++ [""%string]) orderM ++ header SSysLive :: newLines SSysLive.
  Proof.
    unfold mixedRobustLines. rewrite splitLevels_spec. cbn [app flat_map].
    change "[ENV_TRANS]"%string with (header SEnvTrans). change "[SYS_LIVENESS]"%string with (header SSysLive). change "[SYS_TRANS]"%string with (header SSysTrans).
    change "[SYS_INIT]"%string with (header SSysInit). change "[ENV_LIVENESS]"%string with (header SEnvLive). change "[INPUT]"%string with (header SInput).
    change "[OUTPUT]"%string with (header SOutput). change "[ENV_INIT]"%string with (header SEnvInit).
    rewrite !Hd. unfold added, orderM, newLines. fold unmM. cbn [flat_map]. rewrite <- !app_assoc. cbn [app]. rewrite <- !app_assoc. cbn [app].
    fold outs ins names. unfold liveLine. fold names.
    assert (EG : map (fun line => (prefixed (pick pos lv unmM) "" ++ line)%string) (linesOf SSysLive L) = map (prefixed (pick pos lv unmM)) (linesOf SSysLive L)).
    { apply map_ext. intros l. now rewrite prefixed_app. }
    rewrite EG, prefixed_app. reflexivity.
  Qed.
  Lemma tidy_linesM s : Forall (fun l => tidy l /\ content l = true) (linesOf s L).
  Proof. apply Forall_forall. intros l Hl. apply in_linesOf in Hl. rewrite Forall_forall in Ltidy. apply (Ltidy _ Hl). Qed.
  Lemma lineS_linesM s : Forall lineS (linesOf s L).
  Proof. eapply Forall_impl; [|apply tidy_linesM]. intros l [T C]. now apply line_tidy. Qed.
  Lemma noNl_unm P : Forall noNl (pick P lv unmM).
  Proof. apply Forall_forall. intros l Hl. apply pick_in, marked_in in Hl. pose proof (tidy_linesM SEnvTrans) as T. rewrite Forall_forall in T. apply (T l Hl). Qed.
  Lemma nbPos : exists n, nb = S n.
  Proof. destruct nb as [|n]; [cbn in kBits; lia|eauto]. Qed.
  Lemma newLines_ok s : Forall lineS (newLines s).
  Proof.
    assert (OR : forall r, noNl r -> lineS ("| " ++ r)%string).
    { intros r N. apply (line_first "|" (" " ++ r)); try reflexivity. apply (noNl_app "| " r); [now apply noNl_lit|exact N]. }
    assert (PR : forall l, lineS l -> noNl l -> lineS (prefixed (pick pos lv unmM) l)).
    { intros l H N. destruct (prefixed_shape (pick pos lv unmM) l) as [->|(r & E)]; [exact H|]. rewrite E. apply line_first; try reflexivity. rewrite <- E. apply prefixed_noNl; auto. apply noNl_unm. }
    assert (LN : forall s', Forall noNl (linesOf s' L)) by (intros s'; eapply Forall_impl; [|apply tidy_linesM]; intros l [T _]; apply T).
    destruct s; cbn [newLines]; rewrite ?Forall_app.
    - apply lineS_linesM.
    - split; [apply lineS_linesM|]. apply Forall_forall. intros l Hl. apply in_map_iff in Hl. destruct Hl as (i & <- & _). apply (line_first "_" ("ResilienceCounter_" ++ showNat i)); try reflexivity. apply (noNl_counter i).
    - apply lineS_linesM.
    - split; [apply lineS_linesM|]. apply Forall_forall. intros l Hl. apply in_map_iff in Hl. destruct Hl as (i & <- & _). apply (line_first "!" (" " ++ counterName i)); try reflexivity.
      apply (noNl_app "! " (counterName i)); [now apply noNl_lit|apply noNl_counter].
    - split; [apply marked_Forall, lineS_linesM|]. split.
      + apply Forall_forall. intros l Hl. apply pick_in, marked_in in Hl. pose proof (lineS_linesM SEnvTrans) as X. rewrite Forall_forall in X. now apply X.
      + apply Forall_forall. intros l Hl. unfold exceedLines in Hl. apply in_flat_map in Hl. destruct Hl as (v & _ & Hl). apply in_map_iff in Hl. destruct Hl as (c & <- & Hc).
        rewrite !sapp_assoc. change ("| ! ")%string with ("| " ++ "! ")%string. rewrite !sapp_assoc. apply OR. apply noNl_app; [now apply noNl_lit|]. apply noNl_app; [apply noNl_counterIs|]. apply noNl_app; [now apply noNl_lit|].
        apply noNl_app; [apply noNl_times; now apply noNl_lit|]. apply noNl_join. apply Forall_app. split; [|constructor; [now apply noNl_lit|constructor]].
        pose proof (noNl_unm is1) as X. rewrite Forall_forall in *. intros x Hx. apply X. now apply (combinations_incl _ _ _ Hc).
    - split; [apply lineS_linesM|]. apply Forall_forall. intros l Hl. unfold accumulateLines in Hl. apply in_flat_map in Hl. destruct Hl as (v & _ & Hl). apply in_flat_map in Hl. destruct Hl as (t & _ & Hl).
      apply in_map_iff in Hl. destruct Hl as (c & <- & Hc). apply OR. cbv zeta. apply noNl_app; [|apply noNl_app; [now apply noNl_lit|apply noNl_app; [apply noNl_times; now apply noNl_lit|apply noNl_app; [now apply noNl_lit|]]]].
      + apply noNl_app; [now apply noNl_lit|]. apply noNl_app; [apply noNl_app; [now apply noNl_lit|apply noNl_counterIs]|]. apply noNl_app; [now apply noNl_lit|apply noNl_smaller].
      + apply noNl_join. pose proof (noNl_unm is1) as X. rewrite Forall_forall in *. intros x Hx. apply in_map_iff in Hx. destruct Hx as (y & <- & Hy). apply noNl_app; [now apply noNl_lit|]. apply X. now apply (combinations_incl _ _ _ Hc).
    - apply Forall_forall. intros l Hl. apply in_map_iff in Hl. destruct Hl as (a & <- & Ha). unfold liveLine. destruct nbPos as (n & E). rewrite E, times_S, sapp_assoc. apply OR.
      apply noNl_app; [apply noNl_times; now apply noNl_lit|]. apply noNl_app; [apply noNl_join; apply Forall_forall; intros x Hx; apply in_map_iff in Hx; destruct Hx as (i & <- & _); apply noNl_counter|].
      apply noNl_app; [now apply noNl_lit|]. pose proof (LN SEnvLive) as X. rewrite Forall_forall in X. now apply X.
    - split.
      + apply Forall_forall. intros l Hl. apply in_map_iff in Hl. destruct Hl as (a & <- & Ha). pose proof (lineS_linesM SSysLive) as X. pose proof (LN SSysLive) as Y. rewrite Forall_forall in X, Y. now apply PR; auto.
      + constructor; [|constructor]. assert (NZ : noNl zeroLine).
        { unfold zeroLine. apply noNl_app; [apply noNl_times; now apply noNl_lit|]. apply noNl_join. apply Forall_app. split; [|constructor; [now apply noNl_lit|constructor]].
          apply Forall_forall. intros x Hx. apply in_map_iff in Hx. destruct Hx as (i & <- & _). apply noNl_app; [now apply noNl_lit|]. apply noNl_app; [apply noNl_counter|now apply noNl_lit]. }
        apply PR; [|exact NZ]. revert NZ. unfold zeroLine. destruct nbPos as (n & E). rewrite E at 1 3. rewrite times_S, sapp_assoc. intros NZ. match goal with |- lineS ("& " ++ ?r)%string => apply (line_first "&" (" " ++ r)); try reflexivity end. exact NZ.
  Qed.
  Definition Lm : items := flat_map (fun s => map (pair s) (map strip (newLines s))) (orderM ++ [SSysLive]).
  Lemma itemsOf_S s ls : Forall lineS ls -> itemsOf s ls = map (pair s) (map strip ls).
  Proof. unfold itemsOf. rewrite map_map. induction 1 as [|l ls [_ C] F IH]; [reflexivity|]. cbn [filter map]. rewrite C. cbn [map]. now rewrite IH. Qed.
  Lemma writtenM : layout None (file_lines (mixedRobustSpecification nb d (marked true marks (linesOf SEnvTrans L)) lv k)) = Some Lm.
  Proof.
    unfold mixedRobustSpecification. rewrite lines_eq. set (all := flat_map _ orderM ++ _). change (String.concat "" (map (fun l => (l ++ String "010" "")%string) all)) with (unlines all).
    assert (OK : forall s, Forall lineOK (newLines s)) by (intros s; eapply Forall_impl; [|apply newLines_ok]; intros l [H _]; exact H).
    assert (NN : forall s, Forall noNl (newLines s)) by (intros s; eapply Forall_impl; [|apply newLines_ok]; intros l [[H _] _]; exact H).
    rewrite file_lines_unlines.
    - unfold all, Lm.
      assert (CP : forall secs cur rest R, layout (Some (last secs SInput)) rest = Some R -> secs <> [] ->
        layout cur (flat_map (fun s => header s :: newLines s ++ [""%string]) secs ++ rest) = Some (flat_map (fun s => map (pair s) (map strip (newLines s))) secs ++ R)).
      { induction secs as [|s secs IH]; intros cur rest R HR N; [contradiction|]. cbn [flat_map app]. rewrite <- !app_assoc. rewrite layout_header, layout_ok by apply OK.
        cbn [app]. rewrite layout_blank. rewrite itemsOf_S by apply newLines_ok. destruct secs as [|s' secs]; [cbn [last flat_map app] in *; now rewrite HR|].
        rewrite (IH (Some s) rest R HR) by discriminate. reflexivity. }
      rewrite flat_map_app. apply CP; [|discriminate]. rewrite layout_header. cbn [flat_map]. rewrite app_nil_r.
      rewrite <- (app_nil_r (newLines SSysLive)) at 1. rewrite layout_ok by apply OK. cbn [layout]. rewrite app_nil_r. now rewrite itemsOf_S by apply newLines_ok.
    - unfold all. apply Forall_app. split; [|constructor; [apply noNl_header|apply NN]].
      apply Forall_forall. intros l Hl. apply in_flat_map in Hl. destruct Hl as (s & _ & [<-|Hl]); [apply noNl_header|]. apply in_app_or in Hl. destruct Hl as [Hl|[<-|[]]]; [|now apply noNl_lit].
      pose proof (NN s) as X. rewrite Forall_forall in X. auto.
  Qed.
  Lemma Lm_lines s : linesOf s Lm = map strip (newLines s).
  Proof. unfold Lm, orderM. cbn [app flat_map]. rewrite !linesOf_app, !linesOf_pair. destruct s; cbn [sec_eqb app linesOf filter map]; rewrite ?app_nil_r; reflexivity. Qed.

  Definition Dm : items := map (pair SOutput) (outs ++ names) ++ map (pair SInput) ins.
  Definition Fm : items := flat_map (fun s => map (pair s) (map strip (newLines s))) [SEnvInit; SEnvLive; SSysInit; SEnvTrans; SSysTrans; SSysLive].
  Lemma strip_decl s : map strip (linesOf s L) = linesOf s L.
  Proof. pose proof (tidy_linesM s) as T. induction T as [|l ls [(T & _) _] F IH]; [reflexivity|]. cbn [map]. now rewrite T, IH. Qed.
  Lemma Lm_split : Lm = Dm ++ Fm.
  Proof.
    unfold Lm, Dm, Fm, orderM. cbn [app flat_map]. rewrite <- !app_assoc. cbn [newLines]. rewrite map_app. unfold outs, ins. rewrite !strip_decl.
    assert (E : map strip names = names). { unfold names. rewrite map_map. apply map_ext. intros i. apply counter_strip. }
    rewrite E. reflexivity.
  Qed.
  Lemma Dm_decl : Forall (fun p => formulaSection (fst p) = false) Dm.
  Proof. unfold Dm. apply Forall_app. split; apply Forall_forall; intros p Hp; apply in_map_iff in Hp; destruct Hp as (l & <- & _); reflexivity. Qed.
  Lemma Fm_form : Forall (fun p => formulaSection (fst p) = true) Fm.
  Proof. unfold Fm. cbn [flat_map]. rewrite !Forall_app. repeat split; try constructor; apply Forall_forall; intros p Hp; apply in_map_iff in Hp; destruct Hp as (l & <- & _); reflexivity. Qed.
  Lemma filter_all {A} (P : A -> bool) l : Forall (fun a => P a = true) l -> filter P l = l.
  Proof. induction 1 as [|a l H F IH]; [reflexivity|]. cbn [filter]. now rewrite H, IH. Qed.
  Lemma filter_none {A} (P : A -> bool) l : Forall (fun a => P a = false) l -> filter P l = [].
  Proof. induction 1 as [|a l H F IH]; [reflexivity|]. cbn [filter]. now rewrite H. Qed.
  Lemma decls_Lm : decls Lm = Dm.
  Proof.
    unfold decls. rewrite Lm_split, filter_app, filter_all, filter_none, app_nil_r; [reflexivity| |].
    - eapply Forall_impl; [|apply Fm_form]. cbn. intros p ->. reflexivity.
    - eapply Forall_impl; [|apply Dm_decl]. cbn. intros p ->. reflexivity.
  Qed.
  Lemma decls_L0 : decls (inputsFirst L) = decls0 L.
  Proof.
    unfold decls. rewrite inputsFirst_split, filter_app, filter_all, filter_none, app_nil_r; [reflexivity| |].
    - eapply Forall_impl; [|apply filter_formulas]. cbn. intros p ->. reflexivity.
    - eapply Forall_impl; [|apply (decls_D L)]. cbn. intros p ->. reflexivity.
  Qed.
  Definition ni : nat := length ins.
  Definition no : nat := length outs.
  Definition sg (v : nat) : nat := (if v <? ni then no + nb + v else if v <? ni + no then v - ni else v + nb)%nat.
  Definition tu (j : nat) : nat := (if j <? no then ni + j else if j <? no + nb then 0 else if j <? no + nb + ni then j - (no + nb) else j - nb)%nat.
  Lemma sg_nth v p : nth_error (decls0 L) v = Some p -> nth_error Dm (sg v) = Some p.
  Proof.
    unfold decls0, Dm, sg. fold ins outs. rewrite map_app, <- app_assoc. intros H. destruct (v <? ni)%nat eqn:E1.
    - apply Nat.ltb_lt in E1. rewrite nth_error_app1 in H by (rewrite map_length; exact E1).
      rewrite !nth_error_app2; rewrite !map_length; unfold names; rewrite ?map_length, ?seq_length; fold no; try lia.
      replace (no + nb + v - no - nb) with v by lia. exact H.
    - apply Nat.ltb_ge in E1. rewrite nth_error_app2 in H by (rewrite map_length; exact E1). rewrite map_length in H. fold ni in H.
      assert (v - ni < no). { assert (X : nth_error (map (pair SOutput) outs) (v - ni) <> None) by congruence. apply nth_error_Some in X. now rewrite map_length in X. }
      replace (v <? ni + no)%nat with true by (symmetry; apply Nat.ltb_lt; lia). rewrite nth_error_app1 by (rewrite map_length; assumption). exact H.
  Qed.
  Lemma cnt_nth i : i < nb -> nth_error Dm (no + i) = Some (SOutput, counterName i).
  Proof.
    intros H. unfold Dm. rewrite map_app, <- app_assoc. rewrite nth_error_app2; rewrite map_length; fold no; [|lia]. replace (no + i - no) with i by lia.
    rewrite nth_error_app1 by (unfold names; rewrite !map_length, seq_length; exact H). unfold names. rewrite map_map.
    apply (map_nth_error (fun i => (SOutput, counterName i)) i). rewrite (nth_error_nth' _ 0) by (now rewrite seq_length). now rewrite seq_nth by exact H.
  Qed.
  Lemma var_at LL s D i w v p : decls LL = D -> nth_error D v = Some p -> may_use s (sec_eqb (fst p) SOutput) false = true -> i = 2 * v -> w = snd p -> file_var LL s w i.
  Proof.
    intros E H M -> ->. subst D. split.
    - rewrite declared_decls, nth_decl_even, H. reflexivity.
    - rewrite Nat.div2_double. unfold Nat.odd. rewrite even_double, outputs_decls. cbn [negb]. now rewrite (nth_error_nth _ _ _ (map_nth_error _ _ _ H)).
  Qed.
  Lemma var_at' LL s D i w v p : decls LL = D -> nth_error D v = Some p -> may_use s (sec_eqb (fst p) SOutput) true = true -> i = 2 * v + 1 -> w = (snd p ++ "'")%string -> file_var LL s w i.
  Proof.
    intros E H M -> ->. subst D. split.
    - rewrite declared_decls, nth_decl_odd, H. reflexivity.
    - rewrite div2_double1. unfold Nat.odd. rewrite even_double1, outputs_decls. cbn [negb]. now rewrite (nth_error_nth _ _ _ (map_nth_error _ _ _ H)).
  Qed.
  Lemma sg_var s w i : file_var (inputsFirst L) s w i -> file_var Lm s w (lift sg i).
  Proof.
    intros [H1 H2]. rewrite declared_decls, decls_L0 in H1. rewrite outputs_decls, decls_L0 in H2. unfold lift. destruct (even_cases i) as [[v ->]|[v ->]].
    - rewrite nth_decl_even in H1. rewrite even_double, Nat.div2_double. rewrite Nat.div2_double in H2. unfold Nat.odd in H2. rewrite even_double in H2. cbn [negb] in H2.
      destruct (nth_error (decls0 L) v) as [p|] eqn:E; [|discriminate]. cbn in H1. injection H1 as <-. rewrite (nth_error_nth _ _ _ (map_nth_error _ _ _ E)) in H2.
      eapply var_at; [apply decls_Lm|apply sg_nth; exact E|exact H2|reflexivity|reflexivity].
    - rewrite nth_decl_odd in H1. rewrite even_double1, div2_double1. rewrite div2_double1 in H2. unfold Nat.odd in H2. rewrite even_double1 in H2. cbn [negb] in H2.
      destruct (nth_error (decls0 L) v) as [p|] eqn:E; [|discriminate]. cbn in H1. injection H1 as <-. rewrite (nth_error_nth _ _ _ (map_nth_error _ _ _ E)) in H2.
      eapply var_at'; [apply decls_Lm|apply sg_nth; exact E|exact H2|reflexivity|reflexivity].
  Qed.

  (** *** Names *)
  Definition pr (w : string) : list string := [w; (w ++ "'")%string].
  Lemma declared_names : declared (inputsFirst L) = flat_map pr (ins ++ outs) /\ declared Lm = flat_map pr (outs ++ names ++ ins).
  Proof.
    rewrite !declared_decls, decls_L0, decls_Lm. unfold decls0, Dm. fold ins outs.
    assert (E : forall s ls, flat_map (fun p : section * string => [snd p; (snd p ++ "'")%string]) (map (pair s) ls) = flat_map pr ls) by (intros s ls; induction ls as [|l ls IH]; cbn [map flat_map snd]; [reflexivity|now rewrite IH]).
    rewrite !flat_map_app, !E, !flat_map_app, <- app_assoc. auto.
  Qed.
  Lemma fresh_names w : In w (flat_map pr (ins ++ outs)) -> String.prefix "_ResilienceCounter_" w = false.
  Proof.
    intros H. apply Fresh. apply in_flat_map in H. destruct H as (x & Hx & Hw). unfold declared. apply in_flat_map. apply in_app_or in Hx.
    destruct Hx as [Hx|Hx]; apply in_linesOf in Hx; eexists; (split; [exact Hx|exact Hw]).
  Qed.
  Lemma counter_prefix w i : In w (pr (counterName i)) -> String.prefix "_ResilienceCounter_" w = true.
  Proof. intros [<-|[<-|[]]]; unfold counterName; [|rewrite sapp_assoc]; [destruct (showNat i)|destruct (showNat i ++ "'")%string]; reflexivity. Qed.
  Lemma prime_show i j : showNat i <> (showNat j ++ "'")%string.
  Proof.
    intros E. pose proof (showNat_lacks "'" i eq_refl) as H. rewrite E in H. unfold lacks in H. rewrite allChars_app in H. apply andb_true_iff in H. destruct H as [_ H]. discriminate H.
  Qed.
  Lemma prime_inj a : forall b : string, (a ++ "'")%string = (b ++ "'")%string -> a = b.
  Proof.
    induction a as [|c a IH]; intros [|c' b] E; cbn [append] in E; auto.
    - destruct b; discriminate E.
    - destruct a; discriminate E.
    - injection E as -> E. f_equal. now apply IH.
  Qed.
  Lemma names_NoDup l : NoDup l -> NoDup (flat_map pr (map counterName l)).
  Proof.
    induction 1 as [|i l Hi N IH]; cbn [map flat_map pr app]; [constructor|].
    assert (X : forall w, In w (flat_map pr (map counterName l)) -> exists j, In j l /\ (w = counterName j \/ w = (counterName j ++ "'")%string)).
    { intros w Hw. apply in_flat_map in Hw. destruct Hw as (x & Hx & Hw). apply in_map_iff in Hx. destruct Hx as (j & <- & Hj). exists j. split; auto. destruct Hw as [<-|[<-|[]]]; auto. }
    constructor; [|constructor; auto].
    - intros [E|H].
      + unfold counterName in E. rewrite sapp_assoc in E. apply sapp_inj in E. symmetry in E. now apply prime_show in E.
      + destruct (X _ H) as (j & Hj & [E|E]); [apply counter_inj in E; now subst|]. unfold counterName in E. rewrite sapp_assoc in E. apply sapp_inj in E. now apply prime_show in E.
    - intros H. destruct (X _ H) as (j & Hj & [E|E]).
      + unfold counterName in E. rewrite sapp_assoc in E. apply sapp_inj in E. symmetry in E. now apply prime_show in E.
      + apply prime_inj, counter_inj in E. now subst.
  Qed.
  Lemma nodup_app {A} (l l' : list A) : NoDup l -> NoDup l' -> (forall a, In a l -> In a l' -> False) -> NoDup (l ++ l').
  Proof. intros N N' H. induction N as [|a l Ha N IH]; cbn [app]; [exact N'|]. constructor; [|apply IH; intros x Hx; apply H; now right]. intros X. apply in_app_or in X. destruct X; [auto|]. apply (H a); auto. now left. Qed.
  Lemma NDm : NoDup (declared Lm).
  Proof.
    destruct declared_names as [E1 E2]. rewrite E2. apply (Permutation_NoDup (l := flat_map pr (ins ++ outs) ++ flat_map pr names)).
    - rewrite !flat_map_app. rewrite (Permutation_app_comm (flat_map pr ins)), <- app_assoc. apply Permutation_app_head. apply Permutation_app_comm.
    - apply nodup_app.
      + rewrite <- E1. now apply NoDup_inputsFirst.
      + apply names_NoDup. apply seq_NoDup.
      + intros w H1 H2. apply fresh_names in H1. apply in_flat_map in H2. destruct H2 as (x & Hx & Hw). apply in_map_iff in Hx. destruct Hx as (i & <- & _). apply counter_prefix in Hw. congruence.
  Qed.

  (** *** Formulas *)
  Definition ren (f : fml) : fml := rename (lift sg) f.
  Definition cv (i : nat) : fml := FVar (2 * (no + i)).
  Definition cv' (i : nat) : fml := FVar (2 * (no + i) + 1).
  Definition unF : list fml := marked false marks (fs SEnvTrans).
  Definition selF (v : Z) : fml := andL (map (fun i => if nth i (binaryEncode nb v) false then cv i else FNot (cv i)) (seq 0 nb) ++ [FTrue]).
  Definition exceedF (masked : list fml) : list fml :=
    flat_map (fun v => map (fun c => FOr (FNot (selF v)) (orL (c ++ [FFalse]))) (combinations masked (Z.to_nat (Z.of_nat k - v + 1))))
      (xrange (Z.of_nat k - Z.of_nat (length masked) + 1) (Z.of_nat k + 1)).
  Fixpoint smallerF (t p : nat) : fml :=
    match p with
    | O => FTrue
    | S p => if Nat.testbit t p then FOr (FNot (cv' p)) (smallerF t p) else FAnd (FNot (cv' p)) (smallerF t p)
    end.
  Definition accF (masked : list fml) : list fml :=
    flat_map (fun fromV => flat_map (fun toV =>
      map (fun c => FOr (FOr (FNot (selF (Z.of_nat fromV))) (smallerF toV nb)) (orL (FFalse :: map FNot c)))
        (combinations masked (length masked - (toV - fromV))))
      (seq fromV (min (S k) (fromV + length masked + 1) - fromV))) (seq 0 (S k)).
  Definition zeroF : fml := andL (map (fun i => FNot (cv' i)) (seq 0 nb) ++ [FTrue]).
  Definition fm (s : section) : list fml :=
    match s with
    | SEnvInit => map ren (fs SEnvInit)
    | SEnvLive => map (fun f => orL (map cv (seq 0 nb) ++ [ren f])) (fs SEnvLive)
    | SSysInit => map ren (fs SSysInit) ++ map (fun i => FNot (cv i)) (seq 0 nb)
    | SEnvTrans => map ren (marked true marks (fs SEnvTrans) ++ pick is0 lv unF) ++ exceedF (map ren (pick is1 lv unF))
    | SSysTrans => map ren (fs SSysTrans) ++ accF (map ren (pick is1 lv unF))
    | SSysLive => map (fun f => excused (map ren (pick pos lv unF)) (ren f)) (fs SSysLive) ++ [excused (map ren (pick pos lv unF)) zeroF]
    | _ => []
    end.
  Notation gr s f ws := (gram (file_var Lm s) maxNumber false 0 f ws).
  Lemma cv_gram s i : i < nb -> may_use s true false = true -> gr s (cv i) [counterName i].
  Proof. intros H M. apply g_var; [reflexivity|]. eapply var_at; [apply decls_Lm|apply cnt_nth; exact H|exact M|reflexivity|reflexivity]. Qed.
  Lemma cv'_gram s i : i < nb -> may_use s true true = true -> gr s (cv' i) [(counterName i ++ "'")%string].
  Proof. intros H M. apply g_var; [reflexivity|]. eapply var_at'; [apply decls_Lm|apply cnt_nth; exact H|exact M|reflexivity|reflexivity]. Qed.
  Lemma ren_gram s s' l f : (forall o n, may_use s o n = true -> may_use s' o n = true) ->
    gram (file_var (inputsFirst L) s) maxNumber false 0 f (words l) -> gr s' (ren f) (words l).
  Proof. intros M. apply gram_rename. intros w i H. destruct (sg_var s w i H) as [H1 H2]. split; auto. Qed.
  Lemma ren_lines s s' : (forall o n, may_use s o n = true -> may_use s' o n = true) -> forall ls l,
    Forall2 (fun l f => gram (file_var (inputsFirst L) s) maxNumber false 0 f (words l)) ls l -> Forall2 (fun l f => gr s' f (words l)) ls (map ren l).
  Proof. intros M ls l. induction 1 as [|a f ls l G F IH]; cbn [map]; constructor; auto. now apply (ren_gram s s'). Qed.
  Lemma HF' s : formulaSection s = true -> Forall2 (fun l f => gram (file_var (inputsFirst L) s) maxNumber false 0 f (words l)) (linesOf s L) (fs s).
  Proof. intros Hs. pose proof (HF s Hs) as H. now rewrite linesOf_inputsFirst in H. Qed.

  Lemma sel_gram s v : may_use s true false = true -> gr s (selF v) (words (counterIs nb v)).
  Proof.
    intros M. unfold counterIs, selF. rewrite words_and, words_concat, <- concat_words. apply gram_andL; [|rewrite app_length, map_length, seq_length; cbn [length]; lia].
    rewrite map_app, map_map. apply Forall2_app; [|constructor; [apply g_true|constructor]]. apply F2_same. intros i Hi. apply in_seq in Hi.
    destruct (nth i (binaryEncode nb v) false).
    - change ("" ++ counterName i)%string with (counterName i). rewrite (proj1 (counter_words i)). apply cv_gram; [lia|exact M].
    - rewrite words_not, (proj1 (counter_words i)). apply g_not. apply cv_gram; [lia|exact M].
  Qed.
  Lemma smaller_gram s t : may_use s true true = true -> forall p, p <= nb -> gr s (smallerF t p) (words (recurseSmaller t p)).
  Proof.
    intros M. induction p as [|p IH]; intros Hp; cbn [smallerF recurseSmaller]; [apply g_true|].
    assert (E : forall r, words (counterName p ++ "' " ++ r)%string = (counterName p ++ "'")%string :: words r).
    { intros r. replace (counterName p ++ "' " ++ r)%string with ((counterName p ++ "'") ++ String " " r)%string by (rewrite sapp_assoc; reflexivity). rewrite words_sep, (proj2 (counter_words p)). reflexivity. }
    destruct (Nat.testbit t p).
    - change ("| ! " ++ counterName p ++ "' " ++ recurseSmaller t p)%string with ("|" ++ String " " ("! " ++ (counterName p ++ "' " ++ recurseSmaller t p)))%string.
      rewrite words_sep, words_not, E. change (gr s (FOr (FNot (cv' p)) (smallerF t p)) ("|"%string :: ["!"%string; (counterName p ++ "'")%string] ++ words (recurseSmaller t p))).
      apply g_or; [apply g_not, cv'_gram; [lia|exact M]|apply IH; lia].
    - change ("& ! " ++ counterName p ++ "' " ++ recurseSmaller t p)%string with ("&" ++ String " " ("! " ++ (counterName p ++ "' " ++ recurseSmaller t p)))%string.
      rewrite words_sep, words_not, E. change (gr s (FAnd (FNot (cv' p)) (smallerF t p)) ("&"%string :: ["!"%string; (counterName p ++ "'")%string] ++ words (recurseSmaller t p))).
      apply g_and; [apply g_not, cv'_gram; [lia|exact M]|apply IH; lia].
  Qed.
  Lemma F2_len {A B} (R : A -> B -> Prop) l l' : Forall2 R l l' -> length l = length l'.
  Proof. induction 1; cbn [length]; congruence. Qed.
  Lemma exceed_gram ls l : Forall2 (fun l f => gr SEnvTrans f (words l)) ls l -> Forall2 (fun l f => gr SEnvTrans f (words l)) (exceedLines nb k ls) (exceedF l).
  Proof.
    intros F. unfold exceedLines, exceedF. rewrite (F2_len _ _ _ F). apply F2_flat_map. intros v _.
    eapply F2_map; [apply combinations_F2; exact F|]. intros c c' _ Hc.
    change ("| ! " ++ counterIs nb v)%string with ("|" ++ String " " ("! " ++ counterIs nb v))%string. rewrite sapp_assoc.
    change (String " " ("! " ++ counterIs nb v) ++ " " ++ timesStr (length c) "| " ++ String.concat " " (c ++ ["0"%string]))%string
      with (String " " ("! " ++ (counterIs nb v ++ String " " (timesStr (length c) "| " ++ String.concat " " (c ++ ["0"%string])))))%string.
    rewrite words_sep, words_not, words_sep, words_or, words_concat, <- concat_words.
    match goal with |- gr _ _ (words "|" ++ "!"%string :: ?a ++ ?b) => change (gr SEnvTrans (FOr (FNot (selF v)) (orL (c' ++ [FFalse]))) ("|"%string :: ("!"%string :: a) ++ b)) end.
    apply g_or; [apply g_not; now apply sel_gram|]. apply gram_orL; [|rewrite app_length, (F2_len _ _ _ Hc); cbn [length]; lia].
    rewrite map_app. apply Forall2_app; [|constructor; [apply g_false|constructor]]. clear - Hc. induction Hc; cbn [map]; constructor; auto.
  Qed.
  Lemma acc_gram ls l : Forall2 (fun l f => gr SSysTrans f (words l)) ls l -> Forall2 (fun l f => gr SSysTrans f (words l)) (accumulateLines nb k ls) (accF l).
  Proof.
    intros F. unfold accumulateLines, accF. rewrite (F2_len _ _ _ F). apply F2_flat_map. intros v _. apply F2_flat_map. intros t _.
    eapply F2_map; [apply combinations_F2; exact F|]. intros c c' _ Hc. cbv zeta.
    match goal with |- gr _ _ (words ?x) => replace x with ("|" ++ String " " ("|" ++ String " " ("! " ++ (counterIs nb (Z.of_nat v) ++ String " " (recurseSmaller t nb ++ String " " (timesStr (length c) "| " ++ ("0" ++ String " " (String.concat " " (map (fun c => ("! " ++ c)%string) c)))))))))%string end.
    2: { rewrite !sapp_assoc. reflexivity. }
    rewrite words_sep, words_sep, words_not, words_sep, words_sep, words_or, words_sep, words_concat, <- concat_words.
    match goal with |- gr _ _ (words "|" ++ words "|" ++ "!"%string :: ?a ++ ?b ++ ?c) =>
      replace (words "|" ++ words "|" ++ "!"%string :: a ++ b ++ c) with ("|"%string :: ("|"%string :: ("!"%string :: a) ++ b) ++ c) by (cbn [words app isWs]; rewrite <- app_assoc; reflexivity) end.
    apply g_or; [apply g_or; [apply g_not; now apply sel_gram|now apply smaller_gram]|].
    change (words "0" ++ concat (map words (map (fun c => ("! " ++ c)%string) c))) with (concat (["0"%string] :: map words (map (fun c => ("! " ++ c)%string) c))).
    apply gram_orL; [|cbn [length]; now rewrite map_length, (F2_len _ _ _ Hc)]. constructor; [apply g_false|].
    clear - Hc. induction Hc as [|x y c c' H Hc IH]; cbn [map]; constructor; auto. rewrite words_not. now apply g_not.
  Qed.
  Lemma fm_formulas : formulas_of false Lm fm.
  Proof.
    intros s Hs. rewrite Lm_lines. assert (ST : forall ls l, Forall2 (fun l f => gr s f (words l)) ls l -> Forall2 (fun l f => gr s f (words l)) (map strip ls) l).
    { intros ls l. induction 1; cbn [map]; constructor; auto. now rewrite words_strip. }
    apply ST. clear ST. pose proof (HF' s Hs) as H. pose proof (HF' SEnvTrans eq_refl) as HE.
    assert (SUB : forall s', s' = SEnvTrans \/ s' = SSysTrans \/ s' = SSysLive -> forall o n, may_use SEnvTrans o n = true -> may_use s' o n = true) by (intros s0 Hs0; destruct Hs0 as [E|[E|E]]; rewrite E; auto).
    destruct s; try discriminate Hs; cbn [fm newLines].
    - now apply (ren_lines SEnvInit).
    - apply Forall2_app; [now apply (ren_lines SSysInit)|]. apply F2_same. intros i Hi. apply in_seq in Hi. rewrite words_not, (proj1 (counter_words i)). apply g_not, cv_gram; [lia|reflexivity].
    - rewrite app_assoc. apply Forall2_app.
      + apply (ren_lines SEnvTrans); auto. apply Forall2_app; [|apply F2_pick]; now apply F2_marked.
      + apply exceed_gram. apply (ren_lines SEnvTrans); auto. apply F2_pick. now apply F2_marked.
    - apply Forall2_app; [now apply (ren_lines SSysTrans)|]. apply acc_gram. apply (ren_lines SEnvTrans); [now apply SUB; auto|]. apply F2_pick. now apply F2_marked.
    - eapply F2_map; [exact H|]. intros l f _ G. unfold liveLine. rewrite words_or. change (String.concat " " names ++ " " ++ l)%string with (String.concat " " names ++ String " " l)%string. rewrite words_sep, words_concat, <- concat_words.
      replace (concat (map words names) ++ words l) with (concat (map words (names ++ [l]))) by (rewrite map_app, concat_app; cbn [map concat]; now rewrite app_nil_r).
      apply gram_orL; [|rewrite app_length, map_length, seq_length; cbn [length]; lia]. rewrite map_app. unfold names. rewrite map_map. apply Forall2_app.
      + apply F2_same. intros i Hi. apply in_seq in Hi. rewrite (proj1 (counter_words i)). apply cv_gram; [lia|reflexivity].
      + constructor; [|constructor]. now apply (ren_gram SEnvLive).
    - assert (HP : Forall2 (fun l f => gr SSysLive f (words l)) (pick pos lv unmM) (map ren (pick pos lv unF))).
      { apply (ren_lines SEnvTrans); [apply SUB; auto|]. apply F2_pick. now apply F2_marked. }
      apply Forall2_app.
      + eapply F2_map; [exact H|]. intros l f _ G. apply prefixed_gram; auto. now apply (ren_gram SSysLive).
      + constructor; [|constructor]. apply prefixed_gram; auto. unfold zeroLine, zeroF. rewrite words_and, words_concat, <- concat_words.
        apply gram_andL; [|rewrite app_length, map_length, seq_length; cbn [length]; lia]. rewrite map_app, map_map. apply Forall2_app; [|constructor; [apply g_true|constructor]].
        apply F2_same. intros i Hi. apply in_seq in Hi. rewrite words_not, (proj2 (counter_words i)). apply g_not, cv'_gram; [lia|reflexivity].
  Qed.

  (** *** Meaning *)
  Definition good (f : fml) : Prop := exists s ws, gram (file_var (inputsFirst L) s) maxNumber false 0 f ws.
  Lemma good_fs s f : formulaSection s = true -> In f (fs s) -> good f.
  Proof. intros Hs Hf. destruct (Forall2_in_r _ _ _ f (HF s Hs) Hf) as (l & _ & G). exists s, (words l). exact G. Qed.
  Lemma good_pick P f : In f (pick P lv unF) -> good f.
  Proof. intros H. apply pick_in, marked_in in H. now apply (good_fs SEnvTrans). Qed.
  Lemma good_valued f : good f -> valued f.
  Proof. intros (s & ws & G). now apply gram_valued in G. Qed.
  Lemma good_ren f : good f -> valued (ren f).
  Proof.
    intros (s & ws & G). assert (G' : gram (file_var Lm s) maxNumber false 0 (ren f) ws) by (revert G; apply gram_rename; intros w i H; apply sg_var in H; exact H).
    now apply gram_valued in G'.
  Qed.
  Lemma base_ren f b b' : good f -> holds (ren f) (valuation b b') = holds f (valuation (base sg b) (base sg b')).
  Proof.
    intros (s & ws & G). unfold holds, ren. rewrite (proj1 (den_rename _ _ _ _ _) _ _ _ G).
    rewrite (proj1 (den_ext_env _ _ _ _ (valuation (base sg b) (base sg b')) (fun w i _ => valuation_lift sg b b' i)) _ _ _ G). reflexivity.
  Qed.
  Lemma len_decl : length (declared (inputsFirst L)) = 2 * (ni + no).
  Proof.
    rewrite (proj1 declared_names). unfold ni, no. rewrite <- app_length. induction (ins ++ outs) as [|x l IH]; [reflexivity|]. cbn [flat_map pr app length] in *. lia.
  Qed.
  Lemma same_good f : good f -> same2 (ni + no) (fun st st' => holds f (valuation st st')).
  Proof.
    intros (s & ws & G) p p' q q' H H'. unfold holds. rewrite (proj1 (den_ext_env (file_var (inputsFirst L) s) maxNumber false (valuation p q) (valuation p' q') ltac:(
      intros w i [Hi _]; (assert (Hi' : i < length (declared (inputsFirst L))) by (apply nth_error_Some; congruence)); clear Hi; rename Hi' into Hi; rewrite len_decl in Hi; unfold valuation; destruct (Nat.even i); [apply H|apply H']; (rewrite Nat.div2_div; apply Nat.div_lt_upper_bound; lia))) _ _ _ G). reflexivity.
  Qed.
  Lemma cv_holds i b b' : holds (cv i) (valuation b b') = b (no + i).
  Proof. unfold cv, holds, valuation. cbn [den]. now rewrite even_double, Nat.div2_double. Qed.
  Lemma cv'_holds i b b' : holds (cv' i) (valuation b b') = b' (no + i).
  Proof. unfold cv', holds, valuation. cbn [den]. now rewrite even_double1, div2_double1. Qed.
  Lemma not_cv i b b' : holds (FNot (cv i)) (valuation b b') = negb (b (no + i)).
  Proof. rewrite (proj2 (valued_not (cv i) (valued_var _))). now rewrite cv_holds. Qed.
  Lemma not_cv' i b b' : holds (FNot (cv' i)) (valuation b b') = negb (b' (no + i)).
  Proof. rewrite (proj2 (valued_not (cv' i) (valued_var _))). now rewrite cv'_holds. Qed.
  Lemma valued_sel v : Forall valued (map (fun i => if nth i (binaryEncode nb v) false then cv i else FNot (cv i)) (seq 0 nb) ++ [FTrue]).
  Proof.
    apply Forall_app. split; [|constructor; [apply valued_const|constructor]]. apply Forall_forall. intros f Hf. apply in_map_iff in Hf. destruct Hf as (i & <- & _).
    destruct (nth i _ false); [apply valued_var|apply valued_not, valued_var].
  Qed.
  Lemma sel_holds v b b' : holds (selF v) (valuation b b') = true <-> forall i, i < nb -> b (no + i) = Z.testbit v (Z.of_nat i).
  Proof.
    unfold selF. rewrite holds_andL by apply valued_sel. rewrite forallb_app. cbn [forallb]. replace (holds FTrue (valuation b b')) with true by reflexivity. cbn [andb]. rewrite andb_true_r, forallb_forall.
    split.
    - intros H i Hi. rewrite <- (binaryEncode_bit nb) by exact Hi.
      specialize (H (if nth i (binaryEncode nb v) false then cv i else FNot (cv i))). destruct (nth i (binaryEncode nb v) false) eqn:E.
      + rewrite <- (cv_holds i b b'). apply H. apply in_map_iff. exists i. rewrite E. split; [reflexivity|apply in_seq; lia].
      + assert (X : holds (FNot (cv i)) (valuation b b') = true) by (apply H; apply in_map_iff; exists i; rewrite E; split; [reflexivity|apply in_seq; lia]).
        rewrite not_cv in X. now apply negb_true_iff in X.
    - intros H f Hf. apply in_map_iff in Hf. destruct Hf as (i & <- & Hi). apply in_seq in Hi. specialize (H i ltac:(lia)). rewrite <- (binaryEncode_bit nb) in H by lia.
      destruct (nth i (binaryEncode nb v) false); [now rewrite cv_holds|]. rewrite not_cv, H. reflexivity.
  Qed.
  Lemma sel_nat c b b' : c <= k -> holds (selF (Z.of_nat c)) (valuation b b') = true <-> cval nb no b = c.
  Proof.
    intros H. rewrite sel_holds. split.
    - intros E. apply cval_of; [lia|]. intros i Hi. rewrite E by exact Hi. apply testbit_nat.
    - intros E i Hi. rewrite testbit_nat, <- E. symmetry. now apply cval_bit.
  Qed.
  Lemma smaller_holds t b b' : forall p, valued (smallerF t p) /\ holds (smallerF t p) (valuation b b') = (cval p no b' <=? cval p 0 (Nat.testbit t))%nat.
  Proof.
    assert (VN : forall p, valued (FNot (cv' p))) by (intros p; apply valued_not, valued_var).
    induction p as [|p [V IH]]; [split; [apply valued_const|reflexivity]|]. rewrite !cval_top, Nat.add_0_l. cbn [smallerF].
    pose proof (cval_bound p no b') as B1. pose proof (cval_bound p 0 (Nat.testbit t)) as B2.
    destruct (Nat.testbit t p).
    - split; [now apply valued_or|]. rewrite (proj2 (valued_or _ _ (VN p) V)), not_cv', IH. destruct (b' (no + p)); cbn [negb orb].
      + destruct (Nat.leb_spec (cval p no b') (cval p 0 (Nat.testbit t))), (Nat.leb_spec (cval p no b' + 2 ^ p) (cval p 0 (Nat.testbit t) + 2 ^ p)); auto; lia.
      + symmetry. apply Nat.leb_le. lia.
    - split; [now apply valued_and|]. rewrite (proj2 (valued_and _ _ (VN p) V)), not_cv', IH. destruct (b' (no + p)); cbn [negb andb].
      + symmetry. apply Nat.leb_gt. lia.
      + now rewrite !Nat.add_0_r.
  Qed.
  Lemma smaller_le t b b' : t <= k -> holds (smallerF t nb) (valuation b b') = true <-> cval nb no b' <= t.
  Proof. intros H. rewrite (proj2 (smaller_holds t b b' nb)), cval_nat by lia. apply Nat.leb_le. Qed.

  Definition violF (M : list fml) (e : nat -> bool) : nat := length (filter (fun f => negb (holds f e)) M).
  Lemma viol_le M e : violF M e <= length M.
  Proof. unfold violF. induction M as [|f M IH]; cbn [filter length]; [lia|]. destruct (negb _); cbn [length]; lia. Qed.
  Lemma viol_rest M e : violF M e + length (filter (fun f => holds f e) M) = length M.
  Proof. unfold violF. induction M as [|f M IH]; cbn [filter length]; [lia|]. destruct (holds f e); cbn [negb length]; lia. Qed.
  Lemma exceed_holds M b b' : Forall valued M -> cval nb no b <= k ->
    (forallb (fun f => holds f (valuation b b')) (exceedF M) = true <-> cval nb no b + violF M (valuation b b') <= k).
  Proof.
    intros V C. set (e := valuation b b').
    assert (V1 : forall r c, In c (combinations M r) -> Forall valued (c ++ [FFalse])).
    { intros r c Hc. apply Forall_app. split; [|constructor; [apply valued_const|constructor]]. apply Forall_forall. intros f Hf. rewrite Forall_forall in V. apply V. now apply (combinations_incl M r c). }
    assert (V2 : forall v, valued (FNot (selF v))) by (intros v; apply valued_not, valued_andL, valued_sel).
    assert (X : forall v r c, In c (combinations M r) -> holds (FOr (FNot (selF v)) (orL (c ++ [FFalse]))) e = negb (holds (selF v) e) || existsb (fun f => holds f e) c).
    { intros v r c Hc. rewrite (proj2 (valued_or _ _ (V2 v) (valued_orL _ (V1 r c Hc)))), (proj2 (valued_not _ (valued_andL _ (valued_sel v)))), holds_orL by (now apply (V1 r)).
      rewrite existsb_app. cbn [existsb]. replace (holds FFalse e) with false by reflexivity. now rewrite !orb_false_r. }
    assert (NE : forall c, forallb (fun f => negb (holds f e)) c = true <-> existsb (fun f => holds f e) c = false).
    { induction c as [|f c IH]; cbn [forallb existsb]; [tauto|]. rewrite andb_true_iff, orb_false_iff, negb_true_iff. now rewrite IH. }
    rewrite forallb_forall. unfold exceedF. split.
    - intros H. destruct (Nat.le_gt_cases (cval nb no b + violF M e) k) as [L0|L0]; [exact L0|exfalso].
      pose proof (viol_le M e) as VL. set (c := cval nb no b) in *.
      destruct (proj2 (combinations_count (fun f => negb (holds f e)) M (Z.to_nat (Z.of_nat k - Z.of_nat c + 1)))) as (cb & Hcb & F). { unfold violF in L0. lia. }
      apply NE in F. specialize (H (FOr (FNot (selF (Z.of_nat c))) (orL (cb ++ [FFalse])))). rewrite (X _ _ _ Hcb), F, orb_false_r in H.
      assert (T : holds (selF (Z.of_nat c)) e = true) by (apply sel_nat; auto). rewrite T in H. discriminate H.
      apply in_flat_map. exists (Z.of_nat c). split.
      + unfold xrange. apply in_map_iff. exists (Z.to_nat (Z.of_nat c - (Z.of_nat k - Z.of_nat (length M) + 1))). split; [lia|]. apply in_seq. lia.
      + apply in_map_iff. exists cb. auto.
    - intros H f Hf. apply in_flat_map in Hf. destruct Hf as (v & Hv & Hf). apply in_map_iff in Hf. destruct Hf as (cb & <- & Hcb). rewrite (X _ _ _ Hcb).
      destruct (holds (selF v) e) eqn:T; [|reflexivity]. cbn [negb orb]. destruct (existsb (fun f => holds f e) cb) eqn:E; [reflexivity|exfalso].
      apply NE in E. assert (R : Z.to_nat (Z.of_nat k - v + 1) <= violF M e) by (apply combinations_count; eauto).
      unfold xrange in Hv. apply in_map_iff in Hv. destruct Hv as (i & Ev & Hi). apply in_seq in Hi.
      destruct (Z.le_gt_cases 0 v) as [P|P]; [|lia]. rewrite <- (Z2Nat.id v P) in T. apply sel_nat in T; lia.
  Qed.
  Lemma acc_holds M b b' : Forall valued M -> cval nb no b <= k -> cval nb no b + violF M (valuation b b') <= k ->
    (forallb (fun f => holds f (valuation b b')) (accF M) = true <-> cval nb no b' <= cval nb no b + violF M (valuation b b')).
  Proof.
    intros V C CK. set (e := valuation b b') in *.
    assert (V1 : forall r c, In c (combinations M r) -> Forall valued c).
    { intros r c Hc. apply Forall_forall. intros f Hf. rewrite Forall_forall in V. apply V. now apply (combinations_incl M r c). }
    assert (V1' : forall r c, In c (combinations M r) -> Forall valued (FFalse :: map FNot c)).
    { intros r c Hc. constructor; [apply valued_const|]. specialize (V1 r c Hc). clear - V1. induction V1; cbn [map]; constructor; auto. now apply valued_not. }
    assert (V2 : forall v, valued (FNot (selF v))) by (intros v; apply valued_not, valued_andL, valued_sel).
    assert (X : forall v t r c, In c (combinations M r) -> holds (FOr (FOr (FNot (selF v)) (smallerF t nb)) (orL (FFalse :: map FNot c))) e =
      (negb (holds (selF v) e) || holds (smallerF t nb) e) || negb (forallb (fun f => holds f e) c)).
    { intros v t r c Hc. pose proof (proj1 (smaller_holds t b b' nb)) as V3. destruct (valued_or _ _ (V2 v) V3) as [V4 E4]. rewrite (proj2 (valued_or _ _ V4 (valued_orL _ (V1' r c Hc)))), E4.
      rewrite (proj2 (valued_not _ (valued_andL _ (valued_sel v)))), holds_orL by (now apply (V1' r)). f_equal.
      cbn [existsb]. replace (holds FFalse e) with false by reflexivity. cbn [orb]. specialize (V1 r c Hc). clear - V1. induction V1 as [|f c Vf V1 IH]; [reflexivity|]. cbn [map existsb forallb].
      rewrite IH, (proj2 (valued_not _ Vf)). now rewrite negb_andb. }
    pose proof (viol_le M e) as VL. pose proof (viol_rest M e) as VR. rewrite forallb_forall. unfold accF. split.
    - intros H. set (c := cval nb no b) in *. set (w := violF M e) in *.
      destruct (proj2 (combinations_count (fun f => holds f e) M (length M - (c + w - c)))) as (cb & Hcb & F); [lia|].
      specialize (H (FOr (FOr (FNot (selF (Z.of_nat c))) (smallerF (c + w) nb)) (orL (FFalse :: map FNot cb)))). rewrite (X _ _ _ _ Hcb), F in H. cbn [negb] in H. rewrite orb_false_r in H.
      assert (T : holds (selF (Z.of_nat c)) e = true) by (apply sel_nat; auto). rewrite T in H. cbn [negb orb] in H. apply (smaller_le (c + w) b b' CK). apply H.
      apply in_flat_map. exists c. split; [apply in_seq; lia|]. apply in_flat_map. exists (c + w). split; [apply in_seq; lia|]. apply in_map_iff. exists cb. auto.
    - intros H f Hf. apply in_flat_map in Hf. destruct Hf as (v & Hv & Hf). apply in_flat_map in Hf. destruct Hf as (t & Ht & Hf). apply in_map_iff in Hf. destruct Hf as (cb & <- & Hcb).
      apply in_seq in Hv. apply in_seq in Ht. rewrite (X _ _ _ _ Hcb). destruct (holds (selF (Z.of_nat v)) e) eqn:T; [|reflexivity]. apply sel_nat in T; [|lia]. cbn [negb orb].
      destruct (forallb (fun f => holds f e) cb) eqn:E; [|now rewrite orb_true_r]. assert (R : length M - (t - v) <= length (filter (fun f => holds f e) M)) by (apply combinations_count; eauto).
      cbn [negb]. rewrite orb_false_r. apply smaller_le; lia.
  Qed.

  Lemma out_Lm j : nth j (outputs Lm) false = (j <? no + nb)%nat.
  Proof.
    rewrite outputs_decls, decls_Lm. unfold Dm. rewrite map_app, !map_map. cbn [fst sec_eqb].
    destruct (Nat.ltb_spec j (no + nb)) as [H|H].
    - rewrite app_nth1 by (rewrite map_length, app_length; unfold names; rewrite map_length, seq_length; exact H).
      rewrite (nth_indep _ false true) by (rewrite map_length, app_length; unfold names; rewrite map_length, seq_length; exact H).
      apply (map_nth (fun _ : string => true) _ ""%string).
    - rewrite app_nth2 by (rewrite map_length, app_length; unfold names; rewrite map_length, seq_length; exact H). apply (map_nth (fun _ : string => false) _ ""%string).
  Qed.
  Lemma out_L j : nth j (outputs (inputsFirst L)) false = ((ni <=? j) && (j <? ni + no))%nat.
  Proof.
    rewrite outputs_decls, decls_L0. unfold decls0. fold ins outs. rewrite map_app, !map_map. cbn [fst sec_eqb].
    destruct (Nat.leb_spec ni j) as [H|H]; cbn [andb].
    - rewrite app_nth2 by (rewrite map_length; exact H). rewrite map_length. fold ni. destruct (Nat.ltb_spec j (ni + no)) as [H'|H'].
      + rewrite (nth_indep _ false true) by (rewrite map_length; fold no; lia). apply (map_nth (fun _ : string => true) _ ""%string).
      + apply nth_overflow. rewrite map_length. fold no. lia.
    - rewrite app_nth1 by (rewrite map_length; exact H). apply (map_nth (fun _ : string => false) _ ""%string).
  Qed.

  Lemma forallb_ext_in {A} (P Q : A -> bool) l : (forall a, In a l -> P a = Q a) -> forallb P l = forallb Q l.
  Proof. induction l as [|a l IH]; intros H; [reflexivity|]. cbn [forallb]. rewrite H by (now left). rewrite IH; [reflexivity|]. intros b Hb. apply H. now right. Qed.
  Lemma unmarked_len {A} : forall m (l : list A), length m = length l -> length (marked false m l) = unmarked m.
  Proof.
    unfold unmarked. induction m as [|b m IH]; intros [|a l] E; try discriminate E; [reflexivity|]. injection E as E. cbn [marked count_occ].
    destruct b; cbn [Bool.eqb].
    - destruct (Bool.bool_dec true false); [discriminate|]. now apply IH.
    - destruct (Bool.bool_dec false false); [|congruence]. cbn [length]. now rewrite IH.
  Qed.

  Definition G0 : game := file_game (inputsFirst L) fs.
  Definition asmM : list ((state -> state -> bool) * nat) :=
    map (fun p => (fun st st' => holds (fst p) (valuation st st'), snd p)) (withLevels marks lv (fs SEnvTrans)).
  Lemma withLevels_in {A} : forall mk l (fl : list A) a, In a (withLevels mk l fl) -> In (fst a) fl.
  Proof. induction mk as [|[] mk IH]; intros l [|f fl] a; cbn [withLevels]; intros H; try contradiction; (destruct H as [<-|H]; [now left|right; eauto]). Qed.
  Lemma len_unF : length lv = length unF.
  Proof.
    rewrite Llv. unfold unF. symmetry. apply unmarked_len. rewrite LenM. apply (F2_len _ _ _ (HF' SEnvTrans eq_refl)).
  Qed.
  Lemma viol_asm b b' : violations asmM (base sg b) (base sg b') = violF (map ren (pick is1 lv unF)) (valuation b b').
  Proof.
    unfold violations, asmM, violF.
    assert (FM : forall (A B : Type) (P : B -> bool) (g : A -> B) l, length (filter P (map g l)) = length (filter (fun a => P (g a)) l)).
    { intros A B P g l. induction l as [|a l IH]; cbn [map filter]; [reflexivity|]. destruct (P (g a)); cbn [length]; congruence. }
    rewrite !FM. cbn [fst snd]. rewrite (levels_one (fun f => negb (holds f (valuation (base sg b) (base sg b')))) marks (fs SEnvTrans) lv len_unF). f_equal.
    apply filter_ext_in. intros f Hf. rewrite base_ren; [reflexivity|]. now apply (good_pick is1).
  Qed.
  Lemma dist_asm b b' : disturbed asmM (base sg b) (base sg b') <-> existsb (fun f => negb (holds f (valuation b b'))) (map ren (pick pos lv unF)) = true.
  Proof.
    unfold disturbed, asmM. rewrite existsb_exists.
    pose proof (levels_pos (fun f => holds f (valuation (base sg b) (base sg b')) = false) marks (fs SEnvTrans) lv len_unF) as E. split.
    - intros (a & Ha & N & H). apply in_map_iff in Ha. destruct Ha as (p & <- & Hp). cbn [fst snd] in *. destruct (proj1 E) as (f & Hf & Qf); [eauto|].
      exists (ren f). split; [now apply in_map|]. rewrite base_ren by (now apply (good_pick pos)). now rewrite Qf.
    - intros (f & Hf & N). apply in_map_iff in Hf. destruct Hf as (g & <- & Hg). rewrite base_ren in N by (now apply (good_pick pos)). apply negb_true_iff in N.
      destruct (proj2 E) as (a & Ha & Na & Qa); [eauto|]. eexists. split; [apply in_map; exact Ha|]. cbn [fst snd]. auto.
  Qed.
  Lemma ren_all s b b' : formulaSection s = true -> forallb (fun f => holds f (valuation b b')) (map ren (fs s)) = forallb (fun f => holds f (valuation (base sg b) (base sg b'))) (fs s).
  Proof.
    intros Hs. assert (H : forall f, In f (fs s) -> good f) by (intros f; now apply good_fs). revert H. generalize (fs s). induction l as [|f l IH]; intros H; [reflexivity|].
    cbn [map forallb]. rewrite base_ren by (apply H; now left). rewrite IH; [reflexivity|]. intros g Hg. apply H. now right.
  Qed.
  Lemma valued_ren l : (forall f, In f l -> good f) -> Forall valued (map ren l).
  Proof. intros H. apply Forall_forall. intros f Hf. apply in_map_iff in Hf. destruct Hf as (g & <- & Hg). apply good_ren. auto. Qed.
  Lemma zero_seq b : forallb (fun f => f) (map (fun i => negb (b (no + i))) (seq 0 nb)) = true <-> cval nb no b = 0.
  Proof.
    rewrite forallb_forall, cval_zero. split.
    - intros H i Hi. apply negb_true_iff. apply H. apply in_map_iff. exists i. split; [reflexivity|apply in_seq; lia].
    - intros H x Hx. apply in_map_iff in Hx. destruct Hx as (i & <- & Hi). apply in_seq in Hi. apply negb_true_iff. apply H. lia.
  Qed.
  Lemma forallb_map {A B} (P : B -> bool) (g : A -> B) l : forallb P (map g l) = forallb (fun b => b) (map (fun a => P (g a)) l).
  Proof. induction l as [|a l IH]; [reflexivity|]. cbn [map forallb]. now rewrite IH. Qed.
  Lemma valued_zero : Forall valued (map (fun i => FNot (cv' i)) (seq 0 nb) ++ [FTrue]).
  Proof. apply Forall_app. split; [|constructor; [apply valued_const|constructor]]. apply Forall_forall. intros f Hf. apply in_map_iff in Hf. destruct Hf as (i & <- & _). apply valued_not, valued_var. Qed.
  Lemma zero_holds b b' : holds zeroF (valuation b b') = true <-> cval nb no b' = 0.
  Proof.
    unfold zeroF. rewrite holds_andL by apply valued_zero. rewrite forallb_app. cbn [forallb]. replace (holds FTrue (valuation b b')) with true by reflexivity. cbn [andb]. rewrite andb_true_r.
    rewrite forallb_map. rewrite (map_ext _ (fun i => negb (b' (no + i)))) by (intros i; apply not_cv'). apply zero_seq.
  Qed.
  Lemma cnt_any b b' : existsb (fun f => holds f (valuation b b')) (map cv (seq 0 nb)) = true <-> cval nb no b <> 0.
  Proof.
    rewrite existsb_exists, cval_zero. split.
    - intros (f & Hf & H) Z. apply in_map_iff in Hf. destruct Hf as (i & <- & Hi). apply in_seq in Hi. rewrite cv_holds, Z in H by lia. discriminate H.
    - intros N. destruct (existsb (fun i => b (no + i)) (seq 0 nb)) eqn:E.
      + apply existsb_exists in E. destruct E as (i & Hi & H). exists (cv i). split; [now apply in_map|]. now rewrite cv_holds.
      + elim N. intros i Hi. destruct (b (no + i)) eqn:B; [|reflexivity]. assert (T : existsb (fun i => b (no + i)) (seq 0 nb) = true) by (apply existsb_exists; exists i; split; [apply in_seq; lia|exact B]). congruence.
  Qed.

  Lemma game_equiv : realizable (file_game Lm fm) <-> resilient (inputsFirst L) fs marks lv k.
  Proof.
    unfold resilient. fold G0 asmM.
    assert (GP : forall P f, In f (pick P lv unF) -> good f) by (intros P f; apply good_pick).
    assert (VP : forall P, Forall valued (map ren (pick P lv unF))) by (intros P; apply valued_ren; apply GP).
    apply (count_equiv G0 (ni + no) asmM k) with (Nb := ni + no + nb) (o := no) (nb := nb) (sg := sg) (tu := tu)
      (goals := map (fun f st st' => holds f (valuation st st')) (map (fun f => excused (map ren (pick pos lv unF)) (ren f)) (fs SSysLive)))
      (last := fun st st' => holds (excused (map ren (pick pos lv unF)) zeroF) (valuation st st')).
    - intros s s' H. unfold G0, file_game. cbn [g_initE]. apply forallb_ext_in. intros f Hf. apply (same_good f); auto. now apply (good_fs SEnvInit).
    - intros s s' H. unfold G0, file_game. cbn [g_initS]. apply forallb_ext_in. intros f Hf. apply (same_good f); auto. now apply (good_fs SSysInit).
    - intros s s' t t' H H'. unfold G0, file_game. cbn [g_safeS]. apply forallb_ext_in. intros f Hf. apply (same_good f); auto. now apply (good_fs SSysTrans).
    - unfold G0, file_game. cbn [g_liveA]. intros p Hp. apply in_map_iff in Hp. destruct Hp as (f & <- & Hf). apply (same_good f). now apply (good_fs SEnvLive).
    - unfold G0, file_game. cbn [g_liveG]. intros p Hp. apply in_map_iff in Hp. destruct Hp as (f & <- & Hf). apply (same_good f). now apply (good_fs SSysLive).
    - intros a Ha. apply in_map_iff in Ha. destruct Ha as (p & <- & Hp). cbn [fst]. apply (same_good (fst p)). apply withLevels_in in Hp. now apply (good_fs SEnvTrans).
    - exact kBits.
    - intros v. unfold sg. destruct (Nat.ltb_spec v ni), (Nat.ltb_spec v (ni + no)); unfold tu; repeat (match goal with |- context [Nat.ltb ?a ?b] => destruct (Nat.ltb_spec a b) end); lia.
    - intros v Hv. unfold sg. repeat (match goal with |- context [Nat.ltb ?a ?b] => destruct (Nat.ltb_spec a b) end); lia.
    - intros v. unfold sg. repeat (match goal with |- context [Nat.ltb ?a ?b] => destruct (Nat.ltb_spec a b) end); lia.
    - intros v. unfold G0, file_game. cbn [g_out]. rewrite out_Lm, out_L. unfold sg. destruct (Nat.ltb_spec v ni), (Nat.ltb_spec v (ni + no));
      repeat (match goal with |- context [Nat.ltb ?a ?b] => destruct (Nat.ltb_spec a b) | |- context [Nat.leb ?a ?b] => destruct (Nat.leb_spec a b) end); try reflexivity; lia.
    - intros j Hj. unfold G0, file_game. cbn [g_out]. rewrite out_Lm, out_L. unfold tu. destruct (Nat.ltb_spec j no), (Nat.ltb_spec j (no + nb)), (Nat.ltb_spec j (no + nb + ni));
      repeat (match goal with |- context [Nat.ltb ?a ?b] => destruct (Nat.ltb_spec a b) | |- context [Nat.leb ?a ?b] => destruct (Nat.leb_spec a b) end); try reflexivity; lia.
    - intros i Hi. unfold file_game. cbn [g_out]. rewrite out_Lm. apply Nat.ltb_lt. lia.
    - intros b. unfold G0, file_game. cbn [g_initE fm]. now apply (ren_all SEnvInit).
    - intros b. unfold G0, file_game, cnt. cbn [g_initS fm]. rewrite forallb_app, andb_true_iff, (ren_all SSysInit) by reflexivity.
      rewrite (forallb_map (fun f => holds f (valuation b b)) (fun i => FNot (cv i))), (map_ext _ (fun i => negb (b (no + i)))) by (intros i; apply not_cv). now rewrite zero_seq.
    - intros b b' C. unfold cnt in C. unfold file_game. cbn [g_safeE fm]. rewrite forallb_app, andb_true_iff, (exceed_holds _ b b' (VP is1) C).
      unfold stepE, counted. cbn [fst snd]. unfold cnt. rewrite viol_asm.
      assert (Z : forallb (fun f => holds f (valuation b b')) (map ren (marked true marks (fs SEnvTrans) ++ pick is0 lv unF)) = true <->
        (forall a, In a asmM -> snd a = 0 -> fst a (base sg b) (base sg b') = true)).
      { rewrite forallb_forall. pose proof (levels_zero (fun f => holds f (valuation (base sg b) (base sg b')) = true) marks (fs SEnvTrans) lv len_unF) as LZ. fold unF in LZ.
        assert (GG : forall f, In f (marked true marks (fs SEnvTrans) ++ pick is0 lv unF) -> good f).
        { intros f Hf. apply in_app_or in Hf. destruct Hf as [Hf|Hf]; [|now apply (GP is0)]. apply marked_in in Hf. now apply (good_fs SEnvTrans). }
        split.
        - intros H a Ha Sa. apply in_map_iff in Ha. destruct Ha as (p & <- & Hp). cbn [fst snd] in *. revert p Hp Sa. apply LZ. intros f Hf. rewrite <- base_ren by auto. apply H. now apply in_map.
        - intros H f Hf. apply in_map_iff in Hf. destruct Hf as (g & <- & Hg). rewrite base_ren by auto. revert g Hg. apply LZ. intros a Ha Sa.
          apply (H ((fun st st' => holds (fst a) (valuation st st')), snd a)); [|exact Sa]. apply in_map_iff. exists a. auto. }
      rewrite Z. reflexivity.
    - intros b b' C [_ E]. unfold cnt in C. unfold counted in *. cbn [fst snd] in *. unfold cnt in E. rewrite viol_asm in E. unfold file_game. cbn [g_safeS fm].
      rewrite forallb_app, andb_true_iff, (acc_holds _ b b' (VP is1) C E), (ren_all SSysTrans) by reflexivity. unfold stepS. cbn [fst snd]. unfold cnt. now rewrite viol_asm.
    - unfold G0, file_game. cbn [g_liveA fm]. rewrite map_map. apply F2_same. intros f Hf b b'. pose proof (good_fs SEnvLive f eq_refl Hf) as Gf.
      rewrite holds_orL, existsb_app.
      + cbn [existsb]. rewrite orb_false_r, orb_true_iff, base_ren by auto. now rewrite cnt_any.
      + apply Forall_app. split; [|constructor; [now apply good_ren|constructor]]. apply Forall_forall. intros g Hg. apply in_map_iff in Hg. destruct Hg as (i & <- & _). apply valued_var.
    - unfold file_game. cbn [g_liveG fm]. now rewrite map_app.
    - unfold G0, file_game. cbn [g_liveG]. rewrite map_map. apply F2_same. intros f Hf b b'. pose proof (good_fs SSysLive f eq_refl Hf) as Gf.
      rewrite excused_holds; [|apply VP|now apply good_ren]. rewrite orb_true_iff, base_ren by auto. now rewrite dist_asm.
    - intros b b'. rewrite excused_holds; [|apply VP|apply valued_andL, valued_zero]. rewrite orb_true_iff, zero_holds. now rewrite dist_asm.
  Qed.

  Lemma fm_first : grammatical Lm.
  Proof.
    pose proof Lm_split as E. rewrite E. apply (first_grammatical _ _ fm Dm_decl Fm_form). rewrite <- E. apply fm_formulas.
  Qed.
  Lemma mixed_answer ord : match executeFile ord (mixedRobustSpecification nb d (marked true marks (linesOf SEnvTrans L)) lv k) with
    | POk Realizable => resilient (inputsFirst L) fs marks lv k
    | POk Unrealizable => ~ resilient (inputsFirst L) fs marks lv k
    | _ => False
    end.
  Proof.
    assert (PW : plain_file Lm).
    { intros s line Hs Hl. apply in_linesOf in Hl. destruct (Forall2_in_l _ _ _ line (fm_formulas s Hs) Hl) as (f & _ & G). apply plainB_spec. apply (proj1 (gram_plainB _ _ _) _ _ _ G). }
    assert (LF : formulas_of true Lm fm).
    { intros s Hs. refine (F2_impl _ _ _ _ _ (fm_formulas s Hs)). intros l f G. now apply (proj1 (gram_loosen _ _) _ _ _ G). }
    destruct (C41_documented_file ord _ Lm writtenM NDm fm_first PW) as (fw' & F' & H).
    assert (EQV : realizable (file_game Lm fw') <-> resilient (inputsFirst L) fs marks lv k).
    { pose proof (formulas_unique Lm fw' fm NDm F' LF) as U. rewrite <- game_equiv. unfold file_game. now rewrite !U by reflexivity. }
    destruct H as [[E R]|[E U]]; rewrite E; [now apply EQV|]. intros R. apply EQV in R. destruct R as (f & W). destruct (U f) as (x & N). elim N. apply W.
  Qed.
End WrittenM.
