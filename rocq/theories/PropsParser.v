(** * Properties of reading specifications (C05-C12, C41) *)

From Coq Require Import String Ascii List Bool Arith NArith Lia Permutation.
From Verif Require Import BDD Loop Spec VarTypes Synth Sem FormulaSpec Parser ParserProofs
  FileSpec FileProofs GameExt Verdict Execute PropsSynth.
Import ListNotations.
Open Scope string_scope.

(** ** Examples *)

Definition exOrd : nat -> bool := fun _ => true.
Definition exAllowed : list VariableType := [PreInput; PreOutput; PostInput; PostOutput].
Definition nl : string := String "010" "".

(** A specification file.  The system must raise its grant after each request. *)
Definition exFile : string :=
  "# Arbiter" ++ nl ++
  "[INPUT]" ++ nl ++ "a" ++ nl ++ nl ++
  "[OUTPUT]" ++ nl ++ " b " ++ nl ++
  "[ENV_INIT]" ++ nl ++ "! a" ++ nl ++
  "[SYS_INIT]" ++ nl ++ "! b" ++ nl ++
  "[ENV_TRANS]" ++ nl ++ "| ! b ! a'" ++ nl ++
  "[SYS_TRANS]" ++ nl ++ "| ! a' b'" ++ nl ++ "$ 2 ^ a b | ? 0 ! ? 0" ++ nl ++
  "[SYS_LIVENESS]" ++ nl ++ "! b" ++ nl.

Lemma exFile_layout : layout None (file_lines exFile) = Some
  [(SInput, "a"); (SOutput, "b"); (SEnvInit, "! a"); (SSysInit, "! b");
   (SEnvTrans, "| ! b ! a'"); (SSysTrans, "| ! a' b'"); (SSysTrans, "$ 2 ^ a b | ? 0 ! ? 0");
   (SSysLive, "! b")].
Proof. vm_compute. reflexivity. Qed.

Definition isOk {A} (x : pres A) : bool := match x with POk _ => true | _ => false end.

Lemma no_gram1 var : ~ exists f, gram var uintBound false 0 f (words "$ 2 ? 0 1").
Proof.
  change (words "$ 2 ? 0 1") with ["$"; "2"; "?"; "0"; "1"].
  intros (f & G). inversion G as [ | | ? ? ? Hr | | | | | ? ? n fs ws Hn Hb Hl Hz GL | ]; subst.
  inversion GL as [|? ? ? ? w1 w2 G1 G2 E1 E2 E3]; subst.
  inversion G1; subst; try discriminate;
    match goal with H : (_ ++ _ = _)%list |- _ => cbn in H; inversion H; subst end; try discriminate.
  lia.
Qed.

Lemma no_gram2 var w w2 l : allDigits w = false -> l = ["$"; w] \/ l = ["$"; w; w2] ->
  ~ exists f, gram var uintBound false 0 f l.
Proof.
  intros Hw Hl (f & G). destruct Hl as [-> | ->];
  inversion G as [ | | ? ? ? Hr | | | | | ? ? n fs ws Hn Hb Hl Hz GL | ]; subst;
  destruct Hn as (_ & Hn & _); congruence.
Qed.

(** ** C05 *)

(** The statement of C05 without any restriction is false: a line can be accepted
    although the documented grammar does not derive it (the element with number 0
    of the buffer recalls itself). *)
Theorem C05_refuted : exists line b,
  parseFormula exNames exTypes exAllowed exOrd line = POk (Some b) /\
  ~ exists f, gram (var_ok exNames exTypes exAllowed) uintBound false 0 f (words line).
Proof.
  exists "$ 2 ? 0 1", btrue. split; [vm_compute; reflexivity|apply no_gram1].
Qed.
Print Assumptions C05_refuted.

(** If a line is accepted, and its operators "$" and "?" are followed by numbers,
    then there is exactly one formula that the line denotes, and the function read
    is its meaning.  Compared to the documentation the grammar is the loose one, in
    which an element of a buffer may recall elements that follow.  (Missing for
    C05: lines in which a sign or another token is glued to a number.) *)
Theorem C05_formula_meaning_partial : forall names types allowed ord line b,
  parseFormula names types allowed ord line = POk (Some b) ->
  plain_words (words line) ->
  exists f, gram (var_ok names types allowed) uintBound true 0 f (words line) /\
    (forall e, den e [] f = Some (eval b e)) /\
    forall f', gram (var_ok names types allowed) uintBound true 0 f' (words line) -> f' = f.
Proof.
  intros names types allowed ord line b E Hp.
  destruct (parse_sound _ _ _ _ _ _ E Hp) as (f & G & D). exists f. split; auto. split; auto.
  intros f' G'. eapply gram_unique; eauto.
  intros w i j [H1 _] [H2 _]. eapply names_var_fun; eauto.
Qed.
Print Assumptions C05_formula_meaning_partial.

Lemma plain_dec ws :
  (fix go (ws : list string) : bool :=
     match ws with
     | op :: ((w :: _) as r) =>
         (negb (String.eqb op "$" || String.eqb op "?") || (negb (String.eqb w "") && allDigits w)) && go r
     | _ => true
     end) ws = true -> plain_words ws.
Proof.
  intros H p op w q E Hop. revert p ws H E. induction p as [|x p IH]; intros ws H E; subst ws.
  - cbn in H. apply andb_true_iff in H. destruct H as [H _].
    destruct Hop as [->| ->]; cbn in H; apply andb_true_iff in H; destruct H as [H1 H2];
      (split; [intros ->; discriminate|auto]).
  - apply (IH (p ++ op :: w :: q)%list); auto. cbn [app] in H. destruct p as [|y p]; cbn [app] in H |- *;
      apply andb_true_iff in H; exact (proj2 H).
Qed.

Example C05_example :
  isOk (parseFormula exNames exTypes exAllowed exOrd "& a $ 2 ^ a b' | ? 0 ! b") = true /\
  plain_words (words "& a $ 2 ^ a b' | ? 0 ! b").
Proof. split; [vm_compute; reflexivity|apply plain_dec; reflexivity]. Qed.

(** A line that the documented grammar derives is accepted, and the function read
    is its meaning. *)
Theorem C05_documented_meaning : forall names types allowed ord line f,
  gram (var_ok names types allowed) uintBound false 0 f (words line) ->
  exists b, parseFormula names types allowed ord line = POk (Some b) /\
    forall e, den e [] f = Some (eval b e).
Proof. intros. now apply parse_accepts. Qed.
Print Assumptions C05_documented_meaning.

Example C05_example2 : exists f,
  gram (var_ok exNames exTypes exAllowed) uintBound false 0 f (words "$ 2 ^ a b' | ? 0 ! b").
Proof.
  assert (V : forall w i, nth_error exNames i = Some w ->
     (forall j, j < i -> nth_error exNames j <> Some w) -> i < 4 -> var_ok exNames exTypes exAllowed w i).
  { intros w i H1 H2 H3. split; [split; auto|]. do 4 (destruct i as [|i]; [cbn; tauto|]). lia. }
  assert (V0 : var_ok exNames exTypes exAllowed "a" 0) by (apply V; auto; lia).
  assert (V3 : var_ok exNames exTypes exAllowed "b'" 3).
  { apply V; auto. intros j Hj. do 3 (destruct j as [|j]; [discriminate|]). lia. }
  assert (V2 : var_ok exNames exTypes exAllowed "b" 2).
  { apply V; auto. intros j Hj. do 2 (destruct j as [|j]; [discriminate|]). lia. }
  exists (FBuf [FXor (FVar 0) (FVar 3); FOr (FRecall 0) (FNot (FVar 2))]).
  change (words "$ 2 ^ a b' | ? 0 ! b") with ("$" :: "2" :: ["^"; "a"; "b'"; "|"; "?"; "0"; "!"; "b"]).
  eapply (g_buf _ _ _ 0 "2" 2).
  - repeat split; [discriminate|reflexivity..].
  - reflexivity.
  - reflexivity.
  - discriminate.
  - change ["^"; "a"; "b'"; "|"; "?"; "0"; "!"; "b"] with (["^"; "a"; "b'"] ++ ["|"; "?"; "0"; "!"; "b"])%list.
    apply gl_cons.
    + apply (g_xor _ _ _ 0 _ _ ["a"] ["b'"]); eapply g_var; eauto.
    + change ["|"; "?"; "0"; "!"; "b"] with (["|"; "?"; "0"; "!"; "b"] ++ [])%list.
      apply gl_cons; [|constructor].
      apply (g_or _ _ _ 1 _ _ ["?"; "0"] ["!"; "b"]).
      * apply (g_recall _ _ _ 1 "0" 0); [repeat split; [discriminate|reflexivity..]|reflexivity|lia].
      * apply g_not. eapply g_var; eauto.
Qed.

(** ** C06 *)

(** Lines without buffers are accepted if and only if they are grammatical and use
    permitted variables only; in all other cases an error is reported.
    (Missing for C06: lines with buffers, for which see the next theorem.) *)
Theorem C06_accepted_iff_grammatical_partial : forall names types allowed ord line,
  ~ In "$" (words line) ->
  ((exists b, parseFormula names types allowed ord line = POk (Some b)) <->
   (exists f, gram (var_ok names types allowed) uintBound false 0 f (words line))) /\
  ((exists e, parseFormula names types allowed ord line = PErr e) <->
   ~ (exists f, gram (var_ok names types allowed) uintBound false 0 f (words line))).
Proof.
  intros names types allowed ord line Hd. pose proof (parse_nobuf names types allowed ord line Hd) as H.
  destruct (parseFormula names types allowed ord line) as [v|e| |]; try contradiction.
  - destruct H as (b & f & -> & G). split; split; eauto.
    + intros (e & E). discriminate.
    + intros X. elim X. eauto.
  - split; split; eauto.
    + intros (b & E). discriminate.
    + intros G. contradiction.
Qed.
Print Assumptions C06_accepted_iff_grammatical_partial.

Example C06_example :
  ~ In "$" (words "& a | b' ! b") /\ isOk (parseFormula exNames exTypes exAllowed exOrd "& a | b' ! b") = true /\
  ~ In "$" (words "& a | b' ! c") /\ isOk (parseFormula exNames exTypes exAllowed exOrd "& a | b' ! c") = false.
Proof. repeat split; try reflexivity; vm_compute; intuition discriminate. Qed.

(** Lines with buffers: every documented line is accepted ([C05_documented_meaning]),
    but others are, too: with a recall of an element that is not computed yet, with
    a number that has a sign, and with a number glued to the next token. *)
Theorem C06_refuted :
  (exists b, parseFormula exNames exTypes exAllowed exOrd "$ 2 ? 0 1" = POk (Some b)) /\
  (exists b, parseFormula exNames exTypes exAllowed exOrd "$ -4294967295 1" = POk (Some b)) /\
  (exists b, parseFormula exNames exTypes exAllowed exOrd "$ 1a" = POk (Some b)) /\
  forall line, In line ["$ 2 ? 0 1"; "$ -4294967295 1"; "$ 1a"] ->
    ~ exists f, gram (var_ok exNames exTypes exAllowed) uintBound false 0 f (words line).
Proof.
  split; [exists btrue; vm_compute; reflexivity|].
  split; [exists btrue; vm_compute; reflexivity|].
  split; [exists (bvar 0); vm_compute; reflexivity|].
  intros line H. cbn [In] in H. destruct H as [<-|[<-|[<-|[]]]].
  - apply no_gram1.
  - apply (no_gram2 _ "-4294967295" "1"); auto.
  - apply (no_gram2 _ "1a" ""); auto.
Qed.
Print Assumptions C06_refuted.

(** ** C07 *)

(** Parsing can have undefined behaviour: reading element -1 of an empty buffer,
    and applying an operator to an element that is not computed yet. *)
Theorem C07_refuted :
  parseFormula exNames exTypes exAllowed exOrd "$ 0" = PUB /\
  parseFormula exNames exTypes exAllowed exOrd "$ 2 ! ? 1 1" = PUB /\
  initContext exOrd ("[SYS_TRANS]" ++ nl ++ "$ 1 ? 0") = PUB.
Proof. vm_compute. auto. Qed.
Print Assumptions C07_refuted.

(** There is none for lines without buffers, and for documented lines. *)
Theorem C07_no_undefined_behaviour_partial : forall names types allowed ord line,
  (~ In "$" (words line) \/
   exists f, gram (var_ok names types allowed) uintBound false 0 f (words line)) ->
  (exists b, parseFormula names types allowed ord line = POk (Some b)) \/
  (exists e, parseFormula names types allowed ord line = PErr e).
Proof.
  intros names types allowed ord line [Hd|(f & G)].
  - pose proof (parse_nobuf names types allowed ord line Hd) as H.
    destruct (parseFormula names types allowed ord line) as [v|e| |]; try contradiction; eauto.
    destruct H as (b & f & -> & _). eauto.
  - destruct (parse_accepts _ _ _ ord _ _ G) as (b & E & _). eauto.
Qed.
Print Assumptions C07_no_undefined_behaviour_partial.

Example C07_example : ~ In "$" (words "& a ? 1") /\
  parseFormula exNames exTypes exAllowed exOrd "& a ? 1" = PErr RecallNotStored.
Proof. split; [vm_compute; intuition discriminate|vm_compute; reflexivity]. Qed.

(** Parsing always ends. *)
Theorem C07_terminates : forall ord content, initContext ord content <> PFuel.
Proof. exact initContext_no_fuel. Qed.
Print Assumptions C07_terminates.

(** ** C08 *)

(** The result of reading a line and a file is the same for every choice of the
    order in which the operands of |, ^ and & are combined. *)
Theorem C08_operand_order : forall names types allowed ord ord' line content,
  parseFormula names types allowed ord line = parseFormula names types allowed ord' line /\
  initContext ord content = initContext ord' content.
Proof. intros. split; [apply parse_ord|apply initContext_ord]. Qed.
Print Assumptions C08_operand_order.

Example C08_example : isOk (initContext (fun n => Nat.even n) exFile) = true.
Proof. vm_compute. reflexivity. Qed.

(** ** C09 *)

(** In an accepted file, the lines of the sections for initialisation and safety
    are conjoined and the lines of the liveness sections are listed.  The function
    of each line is the one obtained by reading the line alone. *)
Theorem C09_sections_combined : forall ord content c, initContext ord content = POk c ->
  exists L bs, layout None (file_lines content) = Some L /\
    varNames c = declared L /\
    (forall s, formulaSection s = true ->
       Forall2 (fun line b => parseFormula (varNames c) (varTypes c) (allowedF s) ord line = POk (Some b))
               (linesOf s L) (bs s)) /\
    (forall e, eval (initEnv c) e = forallb (fun b => eval b e) (bs SEnvInit)) /\
    (forall e, eval (initSys c) e = forallb (fun b => eval b e) (bs SSysInit)) /\
    (forall e, eval (safetyEnv c) e = forallb (fun b => eval b e) (bs SEnvTrans)) /\
    (forall e, eval (safetySys c) e = forallb (fun b => eval b e) (bs SSysTrans)) /\
    (bs SEnvLive <> [] -> livenessAssumptions c = bs SEnvLive) /\
    (bs SSysLive <> [] -> livenessGuarantees c = bs SSysLive).
Proof.
  intros ord content c E. destruct (initContext_inv _ _ _ E) as (L & bs & El & ND & HV & ->).
  exists L, bs. split; auto. split; auto. split; [exact HV|].
  cbn [initEnv initSys safetyEnv safetySys livenessAssumptions livenessGuarantees finalContext].
  repeat (split; [intros; apply bandAll_eval|]).
  unfold orTrue. split; intros H; [destruct (bs SEnvLive)|destruct (bs SSysLive)]; congruence.
Qed.
Print Assumptions C09_sections_combined.

(** Blank lines, comments, white space at the ends of lines and repeated headers
    have no effect. *)
Theorem C09_layout_irrelevant : forall ord content content' L,
  layout None (file_lines content) = Some L -> layout None (file_lines content') = Some L ->
  initContext ord content = initContext ord content'.
Proof.
  intros ord content content' L E E'. now rewrite (initContext_items _ _ _ E), (initContext_items _ _ _ E').
Qed.
Print Assumptions C09_layout_irrelevant.

Example C09_example_layout :
  layout None (file_lines exFile) =
  layout None (file_lines (
    "[INPUT]" ++ nl ++ "a" ++ nl ++ "[OUTPUT]" ++ nl ++ "b" ++ nl ++
    "[ENV_INIT]" ++ nl ++ "  ! a" ++ nl ++ "[SYS_INIT]" ++ nl ++ "! b" ++ nl ++
    "[ENV_TRANS]" ++ nl ++ "| ! b ! a'" ++ nl ++
    "[SYS_TRANS]" ++ nl ++ "| ! a' b'" ++ nl ++ "# The next one is trivial" ++ nl ++
    "[SYS_TRANS]" ++ nl ++ nl ++ "$ 2 ^ a b | ? 0 ! ? 0" ++ nl ++
    "[SYS_LIVENESS]" ++ nl ++ "! b")).
Proof. vm_compute. reflexivity. Qed.

(** Permuting the lines of the conjoined sections does not change the
    specification, as long as both files are accepted. *)
Theorem C09_permutation : forall ord content content' c c' L L',
  layout None (file_lines content) = Some L -> layout None (file_lines content') = Some L' ->
  declared L = declared L' -> outputs L = outputs L' ->
  (forall s, In s [SEnvInit; SSysInit; SEnvTrans; SSysTrans] -> Permutation (linesOf s L) (linesOf s L')) ->
  linesOf SEnvLive L = linesOf SEnvLive L' -> linesOf SSysLive L = linesOf SSysLive L' ->
  initContext ord content = POk c -> initContext ord content' = POk c' -> c = c'.
Proof.
  intros ord content content' c c' L L' El El' Hd Ho HP LA LG E E'.
  destruct (initContext_inv _ _ _ E) as (L0 & bs & El0 & ND & HV & ->). rewrite El in El0. injection El0 as <-.
  destruct (initContext_inv _ _ _ E') as (L0 & bs' & El0 & ND' & HV' & ->). rewrite El' in El0. injection El0 as <-.
  assert (Ht : typesF L = typesF L') by (rewrite !typesF_kinds; unfold kindsF; now rewrite Ho).
  assert (HV2 : values ord L L' bs').
  { intros s Hs. specialize (HV' s Hs). unfold lineVal in *. now rewrite Hd, Ht. }
  unfold finalContext. rewrite Hd, Ht.
  rewrite (values_fun ord L L L' bs bs' SEnvLive eq_refl HV HV2 LA).
  rewrite (values_fun ord L L L' bs bs' SSysLive eq_refl HV HV2 LG).
  rewrite (values_perm ord L L L' bs bs' SEnvInit eq_refl HV HV2), (values_perm ord L L L' bs bs' SSysInit eq_refl HV HV2),
    (values_perm ord L L L' bs bs' SEnvTrans eq_refl HV HV2), (values_perm ord L L L' bs bs' SSysTrans eq_refl HV HV2)
    by (apply HP; cbn; tauto).
  reflexivity.
Qed.
Print Assumptions C09_permutation.

Definition exFile2 : string :=
  "[SYS_LIVENESS]" ++ nl ++ "1" ++ nl ++ "[INPUT]" ++ nl ++ "a" ++ nl ++ "[OUTPUT]" ++ nl ++ "b" ++ nl ++
  "[SYS_TRANS]" ++ nl ++ "a" ++ nl ++ "[ENV_INIT]" ++ nl ++ "a" ++ nl ++ "[SYS_TRANS]" ++ nl ++ "^ a b'".
Definition exFile3 : string :=
  "[INPUT]" ++ nl ++ "a" ++ nl ++ "[OUTPUT]" ++ nl ++ "b" ++ nl ++ "[ENV_INIT]" ++ nl ++ "a" ++ nl ++ 
  "[SYS_TRANS]" ++ nl ++ "^ a b'" ++ nl ++ "a" ++ nl ++ "[SYS_LIVENESS]" ++ nl ++ "1".
Example C09_example_permutation : isOk (initContext exOrd exFile2) && isOk (initContext exOrd exFile3) = true /\
  exists L L', layout None (file_lines exFile2) = Some L /\ layout None (file_lines exFile3) = Some L' /\
    declared L = declared L' /\ outputs L = outputs L' /\
    Permutation (linesOf SSysTrans L) (linesOf SSysTrans L') /\ linesOf SSysTrans L <> linesOf SSysTrans L'.
Proof.
  split; [vm_compute; reflexivity|]. do 2 eexists. split; [vm_compute; reflexivity|]. split; [vm_compute; reflexivity|].
  repeat split; [apply perm_swap|discriminate].
Qed.

(** ** C10 *)

(** In an accepted specification, initial assumptions depend on current inputs
    only, initial guarantees on current values only, and safety assumptions not
    on the next values of outputs. *)
Theorem C10_supports : forall ord content c L, initContext ord content = POk c ->
  layout None (file_lines content) = Some L ->
  (forall s t s' t' : state, (forall k, k < length (outputs L) -> nth k (outputs L) false = false -> s k = s' k) ->
     trans (initEnv c) s t = trans (initEnv c) s' t') /\
  (forall s t s' t' : state, (forall k, k < length (outputs L) -> s k = s' k) ->
     trans (initSys c) s t = trans (initSys c) s' t') /\
  (forall s t s' t' : state, (forall k, k < length (outputs L) -> s k = s' k) ->
     (forall k, k < length (outputs L) -> nth k (outputs L) false = false -> t k = t' k) ->
     trans (safetyEnv c) s t = trans (safetyEnv c) s' t') /\
  (forall b, In b (initEnv c :: initSys c :: safetyEnv c :: safetySys c ::
                   livenessAssumptions c ++ livenessGuarantees c)%list ->
     forall s t s' t' : state, (forall k, k < length (outputs L) -> s k = s' k /\ t k = t' k) ->
     trans b s t = trans b s' t').
Proof.
  intros ord content c L E El. destruct (initContext_inv _ _ _ E) as (L0 & bs & El0 & ND & HV & ->).
  rewrite El in El0. injection El0 as <-. pose proof (final_wf _ _ _ HV) as Hwf.
  set (c := finalContext L bs) in *.
  assert (Len : length (varTypes c) = 2 * length (outputs L)).
  { unfold c. cbn [varTypes finalContext]. now rewrite length_types, length_outputs. }
  destruct Hwf as [Hk HiE HiS HsE HsS HA HG _ _]. repeat split.
  - intros s t s' t' H. apply HiE. intros v [[Hv Ev] Ov]. destruct (even_cases v) as [[k ->]|[k ->]];
      [|rewrite even_double1 in Ev; discriminate].
    rewrite !tv_even. rewrite Nat.div2_double in Ov. unfold c in Ov. rewrite isOut_final in Ov. apply H; auto. lia.
  - intros s t s' t' H. apply HiS. intros v [Hv Ev]. destruct (even_cases v) as [[k ->]|[k ->]];
      [|rewrite even_double1 in Ev; discriminate].
    rewrite !tv_even. apply H. lia.
  - intros s t s' t' H H'. apply HsE. intros v [Hv Ov]. destruct (even_cases v) as [[k ->]|[k ->]].
    + rewrite !tv_even. apply H. lia.
    + rewrite !tv_odd. apply H'; [lia|]. destruct Ov as [Ov|Ov]; [rewrite even_double1 in Ov; discriminate|].
      rewrite div2_double1 in Ov. unfold c in Ov. now rewrite isOut_final in Ov.
  - intros b Hb s t s' t' H.
    assert (D : dep (isAnyV c) b).
    { cbn [In] in Hb. rewrite in_app_iff in Hb. rewrite Forall_forall in HA, HG.
      destruct Hb as [<-|[<-|[<-|[<-|[Hb|Hb]]]]]; auto.
      - eapply dep_weaken; [|exact HiE]. now intros v [[? _] _].
      - eapply dep_weaken; [|exact HiS]. now intros v [? _].
      - eapply dep_weaken; [|exact HsE]. now intros v [? _]. }
    apply D. intros v Hv. unfold isAnyV in Hv. destruct (even_cases v) as [[k ->]|[k ->]];
      rewrite ?tv_even, ?tv_odd; apply H; lia.
Qed.
Print Assumptions C10_supports.

Example C10_example : isOk (initContext exOrd exFile) = true /\
  isOk (initContext exOrd ("[INPUT]" ++ nl ++ "a" ++ nl ++ "[OUTPUT]" ++ nl ++ "b" ++ nl ++ "[ENV_TRANS]" ++ nl ++ "| a' b'")) = false.
Proof. vm_compute. auto. Qed.

(** ** C11 *)

(** A file in which two declared names coincide is not accepted; in an accepted
    one the names are distinct. *)
Theorem C11_duplicates_rejected : forall ord content L,
  layout None (file_lines content) = Some L -> ~ NoDup (declared L) ->
  forall c, initContext ord content <> POk c.
Proof.
  intros ord content L El ND c E. destruct (initContext_inv _ _ _ E) as (L0 & bs & El0 & ND0 & _).
  rewrite El in El0. injection El0 as <-. contradiction.
Qed.
Print Assumptions C11_duplicates_rejected.

Theorem C11_names_unique : forall ord content c, initContext ord content = POk c ->
  NoDup (varNames c) /\
  forall i j w, nth_error (varNames c) i = Some w -> nth_error (varNames c) j = Some w -> i = j.
Proof.
  intros ord content c E. destruct (initContext_inv _ _ _ E) as (L & bs & El & ND & _ & ->).
  cbn [varNames finalContext]. split; auto. intros i j w Hi Hj. rewrite NoDup_nth_error in ND.
  apply ND; [|congruence]. apply nth_error_Some. congruence.
Qed.
Print Assumptions C11_names_unique.

Example C11_example : exists L, layout None (file_lines
    ("[INPUT]" ++ nl ++ "a" ++ nl ++ "[OUTPUT]" ++ nl ++ "a'" ++ nl)) = Some L /\ ~ NoDup (declared L).
Proof.
  eexists. split; [vm_compute; reflexivity|]. cbn. intros H. inversion H as [|? ? _ H2]; subst.
  inversion H2 as [|? ? H3 _]; subst. apply H3. now left.
Qed.

(** ** C12 *)

(** A file without lines in a liveness section is read like the file with the
    additional line "1" in that section. *)
Theorem C12_default_liveness : forall ord content content' L s, In s [SEnvLive; SSysLive] ->
  layout None (file_lines content) = Some L -> linesOf s L = [] ->
  layout None (file_lines content') = Some (L ++ [(s, "1")])%list ->
  initContext ord content = initContext ord content'.
Proof.
  intros ord content content' L s Hs El HL El'.
  rewrite (initContext_items _ _ _ El), (initContext_items _ _ _ El'), processItems_app.
  pose proof (processLines_items ord _ None emptyCtx L El) as P. cbn [modeOf] in P.
  destruct (processItems ord emptyCtx L) as [c|e| |]; cbn [pbind]; try reflexivity.
  destruct (processLines ord (MNone, emptyCtx) (file_lines content)) as [[m c']|e| |] eqn:E; cbn [pbind] in P; try discriminate.
  injection P as ->. change (MNone, emptyCtx) with (modeOf None, contextOf [] (fun _ => [])) in E.
  apply processLines_spec in E; [|apply values_nil]. destruct E as (L2 & bs & El2 & HV & ->).
  rewrite El in El2. injection El2 as <-. cbn [app snd] in *.
  assert (FS : formulaSection s = true) by (cbn in Hs; destruct Hs as [<-|[<-|[]]]; reflexivity).
  assert (Hb : bs s = []).
  { specialize (HV s FS). rewrite HL in HV. now inversion HV. }
  cbn [processItems]. rewrite (content_line ord L bs s "1" FS "1" eq_refl);
    [|intros a r X; injection X as <- <-; auto|discriminate].
  assert (V : lineVal ord L s "1" = POk (Some btrue)) by reflexivity. rewrite V. cbn [pbind snd].
  cbn in Hs. unfold finish, contextOf.
  assert (D1 : declared (L ++ [(s, "1")])%list = declared L) by (rewrite declared_app; destruct Hs as [<-|[<-|[]]]; apply app_nil_r).
  assert (D2 : typesF (L ++ [(s, "1")])%list = typesF L) by (rewrite typesF_app; destruct Hs as [<-|[<-|[]]]; apply app_nil_r).
  rewrite D1, D2.
  destruct Hs as [<-|[<-|[]]]; cbn [varNames varTypes livenessAssumptions livenessGuarantees initEnv initSys safetyEnv safetySys
    ext sec_eqb]; rewrite Hb; reflexivity.
Qed.
Print Assumptions C12_default_liveness.

(** The lists of liveness properties are never empty; without lines in the section
    the property is TRUE. *)
Theorem C12_never_empty : forall ord content c L, initContext ord content = POk c ->
  layout None (file_lines content) = Some L ->
  livenessAssumptions c <> [] /\ livenessGuarantees c <> [] /\
  (linesOf SEnvLive L = [] -> livenessAssumptions c = [btrue]) /\
  (linesOf SSysLive L = [] -> livenessGuarantees c = [btrue]).
Proof.
  intros ord content c L E El. destruct (initContext_inv _ _ _ E) as (L0 & bs & El0 & ND & HV & ->).
  rewrite El in El0. injection El0 as <-. pose proof (final_wf _ _ _ HV) as [_ _ _ _ _ _ _ H1 H2].
  split; auto. split; auto. cbn [livenessAssumptions livenessGuarantees finalContext].
  split; intros HL.
  - specialize (HV SEnvLive eq_refl). rewrite HL in HV. inversion HV. reflexivity.
  - specialize (HV SSysLive eq_refl). rewrite HL in HV. inversion HV. reflexivity.
Qed.
Print Assumptions C12_never_empty.

Example C12_example : exists L, layout None (file_lines exFile) = Some L /\ linesOf SEnvLive L = [] /\
  layout None (file_lines (exFile ++ "[ENV_LIVENESS]" ++ nl ++ "1")) = Some (L ++ [(SEnvLive, "1")])%list.
Proof. eexists. split; [exact exFile_layout|]. split; [reflexivity|]. vm_compute. reflexivity. Qed.

(** ** C41: from the text of a file to the verdict *)

(** Every accepted specification is well-formed, so that all results about
    synthesis apply to it. *)
Theorem C41_accepted_wf : forall ord content c, initContext ord content = POk c -> wf c.
Proof.
  intros ord content c E. destruct (initContext_inv _ _ _ E) as (L & bs & El & ND & HV & ->).
  eapply final_wf; eauto.
Qed.
Print Assumptions C41_accepted_wf.

Lemma NoDup_prefix {A} (l l' : list A) : NoDup (l ++ l')%list -> NoDup l.
Proof.
  induction l as [|a l IH]; cbn; intros H; constructor; inversion H; subst; auto.
  intros X. match goal with H : ~ In _ _ |- _ => apply H end. apply in_app_iff. now left.
Qed.

Lemma verdict_game c L bs fs : wf c -> c = finalContext L bs ->
  (forall s, formulaSection s = true -> Forall2 sameFun (bs s) (fs s)) ->
  (checkRealizability c = Realizable /\ realizable (file_game L fs)) \/
  (checkRealizability c = Unrealizable /\
   forall f, exists x, ~ objective (file_game L fs) (play (file_game L fs) f x)).
Proof.
  intros Hwf -> Hs. destruct (check_cases _ Hwf) as [[E R]|[E R]]; [left|right]; split; auto.
  - apply (realizable_transfer (game_of (finalContext L bs)) _ (nvars (finalContext L bs))); auto.
    + intros k. now apply file_out.
    + intros pi pi' A O. apply (file_objective L bs fs Hs). eapply objective_agree; eauto.
  - apply (defeat_transfer _ (game_of (finalContext L bs)) (nvars (finalContext L bs))); auto.
    + intros k. symmetry. now apply file_out.
    + intros pi pi' A O. eapply objective_agree; eauto. apply (file_objective L bs fs Hs). exact O.
Qed.

(** A run on a documented file ends with a verdict, and the verdict is right for
    the game that the text of the file describes.  [fs] are the formulas in the
    file. *)
Theorem C41_documented_file : forall ord content L,
  layout None (file_lines content) = Some L -> NoDup (declared L) -> grammatical L -> plain_file L ->
  exists fs, formulas_of true L fs /\
  ((executeFile ord content = POk Realizable /\ realizable (file_game L fs)) \/
   (executeFile ord content = POk Unrealizable /\
    forall f, exists x, ~ objective (file_game L fs) (play (file_game L fs) f x))).
Proof.
  intros ord content L El ND HG PF.
  destruct (initContext_accepts ord content L El ND) as (c & E).
  { intros A s line B EL Hs. destruct (HG A s line B EL Hs) as (f & G).
    assert (NDA : NoDup (declared A)).
    { rewrite EL, declared_app in ND. now apply NoDup_prefix in ND. }
    destruct (parse_accepts (declared A) (typesF A) (allowedF s) ord line f) as (b & P & _); [|exists b; exact P].
    apply (gram_var_ext (file_var A s)); auto. intros w i. now apply var_ok_file. }
  destruct (initContext_inv _ _ _ E) as (L0 & bs & El0 & _ & HV & Ec). rewrite El in El0. injection El0 as <-.
  destruct (values_formulas ord L bs ND PF HV) as (fs & HF & HS). exists fs. split; auto.
  assert (Hwf : wf c) by (eapply C41_accepted_wf; eauto).
  unfold executeFile. rewrite E. cbn [pbind].
  destruct (verdict_game c L bs fs Hwf Ec HS) as [[V R]|[V R]]; rewrite V; auto.
Qed.
Print Assumptions C41_documented_file.

(** The same for all accepted files, in which numbers are followed by white space. *)
Theorem C41_accepted_file : forall ord content c L,
  initContext ord content = POk c -> layout None (file_lines content) = Some L -> plain_file L ->
  exists fs, formulas_of true L fs /\
  ((executeFile ord content = POk Realizable /\ realizable (file_game L fs)) \/
   (executeFile ord content = POk Unrealizable /\
    forall f, exists x, ~ objective (file_game L fs) (play (file_game L fs) f x))).
Proof.
  intros ord content c L E El PF.
  destruct (initContext_inv _ _ _ E) as (L0 & bs & El0 & ND & HV & Ec). rewrite El in El0. injection El0 as <-.
  destruct (values_formulas ord L bs ND PF HV) as (fs & HF & HS). exists fs. split; auto.
  assert (Hwf : wf c) by (eapply C41_accepted_wf; eauto).
  unfold executeFile. rewrite E. cbn [pbind].
  destruct (verdict_game c L bs fs Hwf Ec HS) as [[V R]|[V R]]; rewrite V; auto.
Qed.
Print Assumptions C41_accepted_file.

Example C41_example : isOk (initContext exOrd exFile) = true /\
  (exists L, layout None (file_lines exFile) = Some L /\ plain_file L) /\
  executeFile exOrd exFile = POk Realizable /\
  executeFile exOrd (exFile ++ "& b a") = POk Unrealizable.
Proof.
  split; [vm_compute; reflexivity|]. split; [|vm_compute; auto].
  eexists. split; [exact exFile_layout|]. intros s line Hs Hin. cbn [In] in Hin.
  repeat match goal with H : _ \/ _ |- _ => destruct H as [H|H] end; try contradiction;
    injection Hin as <- <-; try discriminate; apply plain_dec; reflexivity.
Qed.
