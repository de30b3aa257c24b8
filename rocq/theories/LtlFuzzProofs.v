(** * Proofs: the random LTL files of slugsFuzzer.py *)

From Coq Require Import String Ascii List Bool Arith Lia.
From Verif Require Import FormulaSpec Spec FileSpec Execute Explicit CommandLine OutputProofs SymbolicProofs EstimatorText Structured StructuredProofs
  LtlSpec Ltl LtlReadProofs LtlParseProofs LtlMain Fuzz FuzzProofs LtlFuzz.
Import ListNotations.
Local Open Scope string_scope.
Local Open Scope list_scope.

(** ** Tokens *)

Lemma lexes_glue a ts : lexes a ts -> forall c b us, isIdChar c = false -> lexes (String c b) us -> lexes (a ++ String c b)%string (ts ++ us).
Proof.
  intros L c b us C B. induction L as [|x s ts H L IH|w s ts N D E L IH|x s ts H1 H2 L IH]; cbn [append app]; auto.
  - now apply lex_space.
  - rewrite sapp_assoc. apply lex_word; auto. destruct s; [exact C|exact E].
  - now apply lex_symbol.
Qed.
Lemma ws_not_id a : isWs a = true -> isIdChar a = false.
Proof. intros H. destruct (isIdChar a) eqn:E; [|reflexivity]. apply space_id in E. congruence. Qed.
Lemma lexes_drop l ts : lexes (string_of_list_ascii l) ts -> lexes (string_of_list_ascii (dropWs l)) ts.
Proof.
  induction l as [|a l IH]; [auto|]. cbn [dropWs]. destruct (isWs a) eqn:E; [|auto]. intros H. apply IH. cbn [string_of_list_ascii] in H.
  destruct (lexes_total (string_of_list_ascii l)) as (us & M). pose proof (lexes_fun _ _ _ H (lex_space a _ _ E M)). now subst.
Qed.
Lemma lexes_dropRight l ts : lexes (string_of_list_ascii (rev l)) ts -> lexes (string_of_list_ascii (rev (dropWs l))) ts.
Proof.
  induction l as [|a l IH]; [auto|]. cbn [dropWs]. destruct (isWs a) eqn:E; [|auto]. intros H. apply IH. cbn [rev] in H. rewrite soa_app in H. cbn [string_of_list_ascii] in H.
  destruct (lexes_total (string_of_list_ascii (rev l))) as (us & M).
  pose proof (lexes_glue _ _ M a ""%string [] (ws_not_id a E) (lex_space a _ _ E lex_end)) as G. rewrite app_nil_r in G. pose proof (lexes_fun _ _ _ H G). now subst.
Qed.
Lemma lexes_strip s ts : lexes s ts -> lexes (strip s) ts.
Proof.
  intros H. unfold strip. apply lexes_dropRight. rewrite rev_involutive. apply lexes_drop. now rewrite string_of_list_ascii_of_string.
Qed.
Lemma snil s : (s ++ "")%string = s.
Proof. induction s; cbn; congruence. Qed.
Definition joined (ls : list string) : string := String.concat "" (map (fun l => " " ++ strip l)%string ls).
Lemma joined_cons l ls : joined (l :: ls) = String " " (strip l ++ joined ls)%string.
Proof. unfold joined. cbn [map]. now rewrite concat_cons. Qed.
Lemma lexes_joined ls tss : Forall2 lexes ls tss -> lexes (joined ls) (concat tss).
Proof.
  induction 1 as [|l ts ls tss H F IH]; [exact lex_end|]. rewrite joined_cons. apply lex_space; [reflexivity|]. cbn [concat]. apply lexes_strip in H.
  destruct ls as [|l' ls]; [inversion F; subst; change (joined []) with ""%string; change (concat (@nil (list token))) with (@nil token); rewrite app_nil_r; rewrite snil; exact H|].
  rewrite joined_cons in *. apply lexes_glue; auto.
Qed.

(** ** Properties *)

Definition okToken (t : token) : Prop := fst t = "id" -> forall k, In k longKeys -> String.prefix k (snd t) = false.
Lemma ok_sym k : k <> "id" -> okToken (sym k).
Proof. intros N H. now elim N. Qed.

Section NAMES.
  Variables ins outs : list string.
  Notation use := (LtlSpec.usable ltlmopVar ins outs).
  Record atomOK (s : section) (b : bool) (x : string) : Prop := {
    a_ne : x <> ""; a_id : allIdChars x = true; a_token : wordToken x = ("id", x); a_ok : okToken ("id", x); a_nl : noNl x;
    a_atom : ltlmopAtom x None = true; a_use : use s b (LAtom x None) = true }.
  Definition good (s : section) (b next : bool) (p : string) : Prop :=
    noNl p /\ exists ts f, lexes p ts /\ formula 1 ts f /\ Forall okToken ts /\ stepFormula ltlmopAtom next f = true /\ use s b f = true.

  Ltac noNlc := let a := fresh in let H := fresh in intros a H; cbn in H; repeat (destruct H as [<-|H]; [discriminate|]); destruct H.
  Ltac nonl := repeat (apply noNl_app; [first [assumption|noNlc]|]); first [assumption|noNlc].
  Ltac tok := repeat first [apply Forall_nil|apply Forall_cons; [apply ok_sym; discriminate|]|apply Forall_app; split|assumption].

  Lemma up17 ts f : formula 1 ts f -> formula 7 ts f.
  Proof. intros H. do 6 (apply f_up; [lia|]). exact H. Qed.
  Lemma round1 ts f : formula 1 ts f -> formula 1 (sym "(" :: ts ++ [sym ")"]) f.
  Proof. intros H. apply f_up; [lia|]. apply f_round. now apply up17. Qed.

  Lemma good_true s b next : good s b next "TRUE".
  Proof.
    split; [noNlc|]. exists [sym "TRUE"], LTrue. split; [|split; [apply f_up; [lia|]; apply f_true|repeat split; tok]].
    apply (lex_word "TRUE" "" []); [discriminate|reflexivity|exact I|constructor].
  Qed.
  Lemma good_atom s b next x : atomOK s b x -> good s b next x.
  Proof.
    intros [A1 A2 A3 A4 A5 A6 A7]. split; [exact A5|]. exists [("id", x)], (LAtom x None). split; [|split; [apply f_up; [lia|]; apply f_id|repeat split; auto]].
    rewrite <- A3. pose proof (lex_word x "" [] A1 A2 I lex_end) as L. rewrite snil in L. exact L.
  Qed.
  Lemma good_not s b next p : good s b next p -> good s b next ("!" ++ p).
  Proof.
    intros (N & ts & f & L & F & O & T & U). split; [nonl|]. exists (syms ["!"] ++ ts), (LNot f). split; [|split; [|split; [|auto]]].
    - apply (lex_symbol "!"); auto.
    - apply f_unary; [apply p_not; cbn; auto|exact F].
    - cbn. tok.
  Qed.
  Lemma lex_round p ts rest us : lexes p ts -> lexes (String ")" rest) us -> lexes (String "(" (p ++ String ")" rest)) (sym "(" :: ts ++ us).
  Proof. intros L R. apply lex_symbol; [reflexivity|reflexivity|]. apply lexes_glue; auto. Qed.
  Lemma good_next s b p : good s true false p -> good s b true ("next(" ++ p ++ ")").
  Proof.
    intros (N & ts & f & L & F & O & T & U). split; [nonl|]. exists (syms ["next"] ++ sym "(" :: ts ++ [sym ")"]), (LNext f). split; [|split; [|split; [|auto]]].
    - apply (lex_word "next" (String "(" (p ++ ")"))); [discriminate|reflexivity|reflexivity|]. apply lex_round; auto. apply lex_symbol; [reflexivity|reflexivity|constructor].
    - apply f_unary; [apply p_next; cbn; auto|]. now apply round1.
    - cbn. tok.
  Qed.
  Lemma good_binary s b next p q o c : In (o, c) [("&"%char, LAnd); ("|"%char, LOr)] -> good s b next p -> good s b next q ->
    good s b next ("((" ++ p ++ ")" ++ String o ("(" ++ q ++ "))")).
  Proof.
    intros Hoc (N1 & ts & f & L & F & O & T & U) (N2 & us & g & L' & F' & O' & T' & U').
    assert (No : noNl (String o "(")) by (destruct Hoc as [E|[E|[]]]; injection E as <- _; noNlc).
    assert (Lo : isWs o = false /\ isIdChar o = false) by (destruct Hoc as [E|[E|[]]]; injection E as <- _; split; reflexivity).
    split; [change (String o ("(" ++ q ++ "))")) with (String o "(" ++ q ++ "))")%string; nonl|].
    exists (sym "(" :: ((sym "(" :: ts ++ [sym ")"]) ++ [sym (String o "")] ++ (sym "(" :: us ++ [sym ")"])) ++ [sym ")"]), (c f g). split; [|split; [|split]].
    - cbn [append]. apply lex_symbol; [reflexivity|reflexivity|].
      replace (((sym "(" :: ts ++ [sym ")"]) ++ [sym (String o "")] ++ sym "(" :: us ++ [sym ")"]) ++ [sym ")"])
        with (sym "(" :: ts ++ (sym ")" :: sym (String o "") :: (sym "(" :: us ++ [sym ")"; sym ")"]))).
      2:{ cbn [app]. rewrite <- !app_assoc. cbn [app]. rewrite <- !app_assoc. reflexivity. }
      apply lex_round; auto. apply lex_symbol; [reflexivity|reflexivity|]. apply lex_symbol; [tauto|tauto|]. apply lex_round; auto.
      apply lex_symbol; [reflexivity|reflexivity|]. apply lex_symbol; [reflexivity|reflexivity|constructor].
    - apply f_up; [lia|]. apply f_round. apply round1 in F, F'. destruct Hoc as [E|[E|[]]]; injection E as <- <-.
      + do 4 (apply f_up; [lia|]). apply (f_binary 2 [sym "&"]); [apply i_and; cbn; auto|do 2 (apply f_up; [lia|]); exact F|apply f_up; [lia|]; exact F'].
      + do 3 (apply f_up; [lia|]). apply (f_binary 3 [sym "|"]); [apply i_or; cbn; auto|do 3 (apply f_up; [lia|]); exact F|do 2 (apply f_up; [lia|]); exact F'].
    - assert (okToken (sym (String o ""))) by (apply ok_sym; destruct o; discriminate). tok.
    - destruct Hoc as [E|[E|[]]]; injection E as <- <-; cbn; rewrite T, T', U, U'; auto.
  Qed.

  Lemma chooseOp_in cn : forall ds op rest, chooseOp cn ds = GOk op rest -> In op ltlOps /\ (op = "next" -> cn = true) /\ length rest < length ds.
  Proof.
    induction ds as [|d ds IH]; intros op rest E; [discriminate E|]. cbn [chooseOp] in E.
    destruct ((nth (d mod length ltlOps) ltlOps "TRUE" =? "next")%string && negb cn) eqn:B.
    - destruct (IH _ _ E) as (A1 & A2 & A3). cbn [length]. split; [exact A1|split; [exact A2|lia]].
    - assert (X : nth (d mod length ltlOps) ltlOps "TRUE" = op /\ ds = rest) by (split; congruence). destruct X as [<- <-]. split; [|split; [|cbn; lia]].
      + apply nth_In. apply Nat.mod_upper_bound. discriminate.
      + intros X. rewrite X in B. cbn in B. now destruct cn.
  Qed.
  Lemma choice_in {A} (l : list A) ds x rest : choice l ds = GOk x rest -> In x l /\ length rest < length ds.
  Proof.
    destruct l as [|a l]; [discriminate|]. destruct ds as [|d ds]; [discriminate|]. unfold choice. cbn [draw gbind]. intros E.
    match type of E with GOk ?t _ = _ => assert (X : t = x /\ ds = rest) by (split; congruence) end. destruct X as [<- <-]. split; [|cbn; lia].
    apply nth_In. apply Nat.mod_upper_bound. discriminate.
  Qed.

  Lemma makeLtl_spec s : forall fuel b W N ds p rest, (forall x, In x W -> atomOK s b x) -> (forall x, In x N -> atomOK s true x) ->
    makeLtl fuel W N ds = GOk p rest -> good s b (match N with [] => false | _ => true end) p.
  Proof.
    induction fuel as [|fuel IH]; intros b W N ds p rest HW HN E; [discriminate E|]. cbn [makeLtl] in E.
    destruct (chooseOp _ ds) as [op ds1| | |] eqn:EO; try discriminate E. cbn [gbind] in E. apply chooseOp_in in EO. destruct EO as (O1 & O2 & _).
    cbn in O1. repeat (destruct O1 as [<-|O1]); try contradiction.
    - cbn [String.eqb Ascii.eqb Bool.eqb] in E. destruct (makeLtl fuel W N ds1) as [q ds2| | |] eqn:E1; try discriminate E. cbn [gbind] in E.
      assert (X : ("!" ++ q)%string = p) by congruence. rewrite <- X. apply good_not. eapply IH; eauto.
    - change ("next" =? "!")%string with false in E. change ("next" =? "next")%string with true in E. cbv iota in E. specialize (O2 eq_refl). destruct (makeLtl fuel N [] ds1) as [q ds2| | |] eqn:E1; try discriminate E. cbn [gbind] in E.
      assert (X : ("next(" ++ q ++ ")")%string = p) by congruence. rewrite <- X, O2. apply good_next. apply (IH true N [] ds1 q ds2); auto. intros x [].
    - change ("&" =? "!")%string with false in E. change ("&" =? "next")%string with false in E. change ("&" =? "&")%string with true in E. cbv iota in E.
      destruct (makeLtl fuel W N ds1) as [q ds2| | |] eqn:E1; try discriminate E. cbn [gbind] in E. destruct (makeLtl fuel W N ds2) as [r ds3| | |] eqn:E2; try discriminate E. cbn [gbind] in E.
      assert (X : ("((" ++ q ++ ")&(" ++ r ++ "))")%string = p) by congruence. rewrite <- X. apply (good_binary s b _ q r "&" LAnd); [now left|eapply IH; eauto|eapply IH; eauto].
    - change ("|" =? "!")%string with false in E. change ("|" =? "next")%string with false in E. change ("|" =? "&")%string with false in E. change ("|" =? "|")%string with true in E. cbv iota in E.
      destruct (makeLtl fuel W N ds1) as [q ds2| | |] eqn:E1; try discriminate E. cbn [gbind] in E. destruct (makeLtl fuel W N ds2) as [r ds3| | |] eqn:E2; try discriminate E. cbn [gbind] in E.
      assert (X : ("((" ++ q ++ ")|(" ++ r ++ "))")%string = p) by congruence. rewrite <- X. apply (good_binary s b _ q r "|" LOr); [right; now left|eapply IH; eauto|eapply IH; eauto].
    - change ((match W with [] => GOk "TRUE" ds1 | _ :: _ => choice W ds1 end) = GOk p rest) in E. destruct W as [|w W]; [assert (X : "TRUE" = p) by congruence; rewrite <- X; apply good_true|].
      apply choice_in in E. apply good_atom. apply HW. tauto.
    - change ((match W with [] => GOk "TRUE" ds1 | _ :: _ => choice W ds1 end) = GOk p rest) in E. destruct W as [|w W]; [assert (X : "TRUE" = p) by congruence; rewrite <- X; apply good_true|].
      apply choice_in in E. apply good_atom. apply HW. tauto.
    - change (GOk "TRUE" ds1 = GOk p rest) in E. assert (X : "TRUE" = p) by congruence. rewrite <- X. apply good_true.
  Qed.

  (** ** Lines of properties *)

  Definition operator (live : bool) : string := if live then "[]<>" else "[]".
  Definition lineFor (x : bool * string) : string := ("  &  " ++ operator (fst x) ++ "(" ++ snd x ++ ")")%string.
  Lemma ltlLoop_spec s b live W N : (forall x, In x W -> atomOK s b x) -> (forall x, In x N -> atomOK s true x) -> forall fuel ds t rest,
    ltlLoop fuel (operator live) W N ds = GOk t rest ->
    exists ps, t = unlines (map lineFor (map (pair live) ps)) /\ Forall (good s b (match N with [] => false | _ => true end)) ps.
  Proof.
    intros HW HN. induction fuel as [|fuel IH]; intros ds t rest E; [discriminate E|]. cbn [ltlLoop] in E. destruct ds as [|d ds]; [discriminate E|]. unfold chance in E. cbn [draw gbind] in E.
    destruct (negb (d =? 0)%nat); [|exists []; split; [|constructor]; cbn; congruence].
    destruct (makeLtl (S (length ds)) W N ds) as [p ds1| | |] eqn:E1; try discriminate E. cbn [gbind] in E. destruct (ltlLoop fuel (operator live) W N ds1) as [t' ds2| | |] eqn:E2; try discriminate E. cbn [gbind] in E.
    destruct (IH _ _ _ E2) as (ps & -> & F). exists (p :: ps). split; [|constructor; auto; eapply makeLtl_spec; eauto].
    match type of E with GOk ?x _ = _ => assert (X : x = t) by congruence end. rewrite <- X. cbn [map]. rewrite unlines_cons. unfold lineFor at 2. cbn [fst snd]. now rewrite !sapp_assoc.
  Qed.

  (** What is needed of a property in the assumptions or guarantees. *)
  Definition fits (st sl : section) (bl : bool) (x : bool * string) : Prop := if fst x then good sl bl false (snd x) else good st false true (snd x).
  Lemma step_mono f : stepFormula ltlmopAtom false f = true -> stepFormula ltlmopAtom true f = true.
  Proof. induction f; cbn; auto; rewrite ?andb_true_iff; try tauto. discriminate. Qed.
  Lemma good_mono s b p n : good s b n p -> good s b true p.
  Proof. intros (N & ts & f & L & F & O & T & U). split; auto. exists ts, f. destruct n; auto. apply step_mono in T. auto. Qed.

  Definition wrap (live : bool) (f : ltl) : ltl := LGlobally (if live then LFinally f else f).
  Definition wraps (items : list (bool * ltl)) : ltl := fold_left (fun a x => LAnd a (wrap (fst x) (snd x))) items LTrue.
  Definition opTokens (live : bool) : list token := if live then syms ["["; "]"; "<"; ">"] else syms ["["; "]"].

  Lemma line_lexes x ts : lexes (snd x) ts -> lexes (lineFor x) (sym "&" :: opTokens (fst x) ++ sym "(" :: ts ++ [sym ")"]).
  Proof.
    destruct x as [live p]. cbn [fst snd]. intros L. unfold lineFor. cbn [fst snd append].
    assert (R : lexes (String "(" (p ++ ")")) (sym "(" :: ts ++ [sym ")"])) by (apply lex_round; auto; apply lex_symbol; [reflexivity|reflexivity|constructor]).
    do 2 (apply lex_space; [reflexivity|]). apply lex_symbol; [reflexivity|reflexivity|]. do 2 (apply lex_space; [reflexivity|]).
    destruct live; cbn; repeat (apply lex_symbol; [reflexivity|reflexivity|]); apply lexes_glue; auto; apply lex_symbol; try reflexivity; constructor.
  Qed.
  Lemma wrap_formula live ts f : formula 1 ts f -> formula 1 (opTokens live ++ sym "(" :: ts ++ [sym ")"]) (wrap live f).
  Proof.
    intros F. apply round1 in F. destruct live; unfold wrap; cbn [opTokens].
    - apply (f_unary (syms ["["; "]"])); [apply p_globally; cbn; auto|]. apply (f_unary (syms ["<"; ">"])); [apply p_finally; cbn; auto|exact F].
    - apply (f_unary (syms ["["; "]"])); [apply p_globally; cbn; auto|exact F].
  Qed.

  (** The formula of an item fits. *)
  Definition fitsF (st sl : section) (bl : bool) (x : bool * ltl) : Prop :=
    stepFormula ltlmopAtom (negb (fst x)) (snd x) = true /\ use (if fst x then sl else st) (if fst x then bl else false) (snd x) = true.
  Lemma items_lexes st sl bl items : Forall (fits st sl bl) items -> exists tss fs, Forall2 lexes (map lineFor items) tss /\
    (forall ts f, formula 3 ts f -> formula 3 (ts ++ concat tss) (fold_left (fun a x => LAnd a (wrap (fst x) (snd x))) fs f)) /\
    Forall (Forall okToken) tss /\ Forall (fun ts => exists us, ts = sym "&" :: us) tss /\ Forall (fitsF st sl bl) fs.
  Proof.
    induction 1 as [|[live p] items H F IH].
    - exists [], []. split; [constructor|]. split; [|repeat split; constructor]. intros ts f. cbn. now rewrite app_nil_r.
    - destruct IH as (tss & fs & L & G & O & D & FF).
      assert (H' : exists ts f, lexes p ts /\ formula 1 ts f /\ Forall okToken ts /\ fitsF st sl bl (live, f)).
      { unfold fits in H. cbn [fst snd] in H. unfold fitsF. cbn [fst snd]. destruct live; destruct H as (_ & ts & f & A1 & A2 & A3 & A4 & A5); exists ts, f; auto. }
      destruct H' as (ts & f & A1 & A2 & A3 & A4).
      exists ((sym "&" :: opTokens live ++ sym "(" :: ts ++ [sym ")"]) :: tss), ((live, f) :: fs). split; [|split; [|split; [|split]]].
      + constructor; [|exact L]. now apply (line_lexes (live, p)).
      + intros us g K. cbn [concat fold_left fst snd]. rewrite app_assoc. apply G.
        apply (f_binary 2 [sym "&"] LAnd us (opTokens live ++ sym "(" :: ts ++ [sym ")"])); [apply i_and; cbn; auto|exact K|]. apply f_up; [lia|]. now apply wrap_formula.
      + constructor; [|exact O]. constructor; [apply ok_sym; discriminate|]. apply Forall_app. split; [destruct live; cbn; tok|]. constructor; [apply ok_sym; discriminate|]. apply Forall_app. split; [exact A3|]. tok.
      + constructor; [|exact D]. eexists. reflexivity.
      + constructor; auto.
  Qed.

  Lemma wraps_conjuncts fs : forall f, conjuncts (fold_left (fun a x => LAnd a (wrap (fst x) (snd x))) fs f) = conjuncts f ++ map (fun x => wrap (fst x) (snd x)) fs.
  Proof. induction fs as [|x fs IH]; intros f; cbn [fold_left map]; [now rewrite app_nil_r|]. rewrite IH. cbn [conjuncts wrap]. now rewrite <- app_assoc. Qed.
  Lemma wraps_parts kind fs : parts kind [wraps fs] = kind LTrue ++ flat_map (fun x => kind (wrap (fst x) (snd x))) fs.
  Proof.
    unfold parts, wraps. cbn [flat_map]. rewrite app_nil_r, wraps_conjuncts. cbn [conjuncts app flat_map]. f_equal. induction fs as [|x fs IH]; cbn; [reflexivity|now rewrite IH].
  Qed.
  Lemma not_finally f : stepFormula ltlmopAtom true f = true -> alwaysOf (LGlobally f) = [f] /\ recurringOf (LGlobally f) = [].
  Proof. destruct f; cbn; auto; discriminate. Qed.

  Lemma parts_initial fs : parts initialOf [wraps fs] = [LTrue].
  Proof. rewrite wraps_parts. cbn. f_equal. induction fs; auto. Qed.
  Lemma parts_ok st sl bl fs : Forall (fitsF st sl bl) fs ->
    forallb (stepFormula ltlmopAtom true) (parts alwaysOf [wraps fs]) = true /\ forallb (use st false) (parts alwaysOf [wraps fs]) = true /\
    forallb (stepFormula ltlmopAtom false) (parts recurringOf [wraps fs]) = true /\ forallb (use sl bl) (parts recurringOf [wraps fs]) = true.
  Proof.
    rewrite !wraps_parts. cbn [alwaysOf recurringOf app]. induction 1 as [|[live f] fs [H1 H2] F IH]; [repeat split|].
    destruct IH as (A1 & A2 & A3 & A4). cbn [flat_map fst snd] in *. rewrite !forallb_app, A1, A2, A3, A4, !andb_true_r. unfold wrap. destruct live; cbn [negb] in *.
    - cbn [alwaysOf recurringOf forallb]. rewrite H1, H2. auto.
    - destruct (not_finally f H1) as [-> ->]. cbn [forallb]. rewrite H1, H2. auto.
  Qed.
End NAMES.

(** ** The file of the formulas *)

Definition isHeader (l : string) : bool := (strip l =? "LTLSPEC -- Assumptions")%string || (strip l =? "LTLSPEC -- Guarantees")%string.
Lemma not_header l ts : lexes l ts -> match ts with t :: _ => fst t <> "id" | [] => True end -> isHeader l = false.
Proof.
  intros L H. apply lexes_strip in L. unfold isHeader.
  destruct (String.eqb_spec (strip l) "LTLSPEC -- Assumptions") as [E|_]; [|destruct (String.eqb_spec (strip l) "LTLSPEC -- Guarantees") as [E|_]; [|reflexivity]];
    rewrite E in L; apply lexes_lexF in L; vm_compute in L; subst ts; now elim H.
Qed.
Lemma joined_plain ls tss : Forall2 lexes ls tss -> Forall (Forall okToken) tss -> plainText (joined ls).
Proof.
  intros F O ts x k L I K. apply lexes_joined in F. pose proof (lexes_fun _ _ _ L F). subst ts. apply in_concat in I. destruct I as (us & I1 & I2).
  rewrite Forall_forall in O. specialize (O _ I1). rewrite Forall_forall in O. exact (O _ I2 eq_refl k K).
Qed.
Lemma lineFor_noNl x : noNl (snd x) -> noNl (lineFor x).
Proof.
  assert (C : forall s, forallb (fun a => negb (a =? "010")%char) (list_ascii_of_string s) = true -> noNl s).
  { intros s H a Ha. rewrite forallb_forall in H. specialize (H a Ha). intros ->. discriminate H. }
  intros H. destruct x as [live p]. unfold lineFor. cbn [fst snd] in *. repeat (apply noNl_app; [first [exact H|apply C; destruct live; reflexivity]|]). apply C. reflexivity.
Qed.
Definition opening : string := (tab ++ "( " ++ nl ++ tab ++ tab ++ "TRUE  ")%string.
Lemma body_spec ins outs st sl bl items : Forall (fits ins outs st sl bl) items -> exists B fs,
  (opening ++ unlines (map lineFor items) ++ ");" ++ nl)%string = unlines B /\ Forall noNl B /\ existsb isHeader B = false /\
  entryText (joined B) (wraps fs) /\ plainText (joined B) /\ Forall (fitsF ins outs st sl bl) fs.
Proof.
  intros H. destruct (items_lexes _ _ _ _ _ _ H) as (tss & fs & L & G & O & D & FF).
  set (close := [sym ")"; sym ";"]).
  assert (LC : lexes ");" close) by (apply lex_symbol; [reflexivity|reflexivity|]; apply lex_symbol; [reflexivity|reflexivity|constructor]).
  assert (LM : Forall2 lexes (map lineFor items ++ [");"]) (tss ++ [close])) by (apply Forall2_app; auto).
  assert (OM : Forall (Forall okToken) (tss ++ [close])) by (apply Forall_app; split; auto; repeat constructor; discriminate).
  assert (DM : Forall (fun ts => exists t us, ts = t :: us /\ fst t <> "id" /\ match t with (k, _) => match k with String a "" => True | _ => False end end) (tss ++ [close])).
  { apply Forall_app. split; [|constructor; [|constructor]].
    - eapply Forall_impl; [|exact D]. intros ts (us & ->). exists (sym "&"), us. split; auto. split; [discriminate|exact I].
    - exists (sym ")"), [sym ";"]. split; auto. split; [discriminate|exact I]. }
  assert (NM : Forall noNl (map lineFor items ++ [");"])).
  { apply Forall_app. split.
    - rewrite Forall_map. eapply Forall_impl; [|exact H]. intros x K. apply lineFor_noNl. unfold fits in K. destruct (fst x); exact (proj1 K).
    - constructor; [|constructor]. intros a Ha. cbn in Ha. repeat (destruct Ha as [<-|Ha]; [discriminate|]). destruct Ha. }
  assert (UM : (unlines (map lineFor items) ++ ");" ++ nl)%string = unlines (map lineFor items ++ [");"])) by (rewrite unlines_app; reflexivity).
  rewrite UM. assert (CM : concat (tss ++ [close]) = concat tss ++ [sym ")"; sym ";"]) by (rewrite concat_app; cbn [concat]; now rewrite app_nil_r).
  destruct (map lineFor items ++ [");"]) as [|x xs] eqn:EX; [destruct (map lineFor items); discriminate EX|].
  destruct (tss ++ [close]) as [|tx txs] eqn:ET; [destruct tss; discriminate ET|]. inversion LM as [|? ? ? ? Lx Lxs]; subst. inversion OM as [|? ? Ox Oxs]; subst. inversion DM as [|? ? Dx Dxs]; subst. inversion NM as [|? ? Nx Nxs]; subst.
  assert (LT : lexes (tab ++ tab ++ "TRUE  " ++ x)%string (sym "TRUE" :: tx)).
  { unfold tab. cbn [append]. do 2 (apply lex_space; [reflexivity|]). apply (lex_word "TRUE" (String " " (String " " x))); [discriminate|reflexivity|reflexivity|]. do 2 (apply lex_space; [reflexivity|]). exact Lx. }
  assert (LO : lexes (tab ++ "( ")%string [sym "("]).
  { unfold tab. cbn [append]. apply lex_space; [reflexivity|]. apply lex_symbol; [reflexivity|reflexivity|]. apply lex_space; [reflexivity|constructor]. }
  assert (LB : Forall2 lexes ((tab ++ "( ")%string :: (tab ++ tab ++ "TRUE  " ++ x)%string :: xs) ([sym "("] :: (sym "TRUE" :: tx) :: txs)) by (do 2 (constructor; [assumption|]); assumption).
  exists ((tab ++ "( ")%string :: (tab ++ tab ++ "TRUE  " ++ x)%string :: xs), fs. repeat split.
  - rewrite !unlines_cons. unfold opening. now rewrite !sapp_assoc.
  - assert (C : forall s, forallb (fun a => negb (a =? "010")%char) (list_ascii_of_string s) = true -> noNl s).
    { intros s K a Ha. rewrite forallb_forall in K. specialize (K a Ha). intros ->. discriminate K. }
    constructor; [now apply C|]. constructor; [|exact Nxs]. change (tab ++ tab ++ "TRUE  " ++ x)%string with ((tab ++ tab ++ "TRUE  ") ++ x)%string. apply noNl_app; [now apply C|exact Nx].
  - cbn [existsb]. rewrite (not_header _ _ LO), (not_header _ _ LT) by discriminate. cbn [orb]. clear - Lxs Dxs.
    induction Lxs as [|l ts ls tss L F IH]; [reflexivity|]. inversion Dxs as [|? ? (t & us & -> & K & _) Ds]; subst. cbn [existsb]. rewrite (not_header _ _ L) by exact K. exact (IH Ds).
  - apply lexes_joined in LB. cbn [concat app] in LB, CM. rewrite CM in LB.
    exists (sym "(" :: ([sym "TRUE"] ++ concat tss) ++ [sym ")"]). split; [replace ((sym "(" :: ([sym "TRUE"] ++ concat tss) ++ [sym ")"]) ++ [sym ";"]) with (sym "(" :: sym "TRUE" :: concat tss ++ [sym ")"; sym ";"]); [exact LB|]|].
    + cbn [app]. now rewrite <- app_assoc.
    + do 7 (apply f_up; [lia|]). apply f_round. do 4 (apply f_up; [lia|]). apply G. do 3 (apply f_up; [lia|]). apply f_true.
  - apply (joined_plain _ _ LB). constructor; [repeat constructor; discriminate|]. constructor; [|exact Oxs]. constructor; [discriminate|exact Ox].
  - exact FF.
Qed.

(** ** The whole file *)

Definition insOf (n : nat) : list string := map (fun i => "in" ++ showNat i)%string (seq 0 n).
Definition outsOf (n : nat) : list string := map (fun i => "out" ++ showNat i)%string (seq 0 n).
Lemma show_id i : allIdChars (showNat i) = true.
Proof.
  destruct (numeral_show i) as (_ & A & _). revert A. generalize (showNat i). intros s. induction s as [|a s IH]; [reflexivity|]. cbn [allDigits allIdChars]. intros H. apply andb_prop in H.
  destruct H as [H1 H2]. rewrite (IH H2), andb_true_r. unfold isIdChar. change (FormulaSpec.isDigit a = true) in H1. rewrite H1. now rewrite !orb_true_r.
Qed.
Lemma show_noNl i : noNl (showNat i).
Proof. apply noWs_noNl. apply noWs_show. Qed.
Lemma in_ok n s b i : In i (seq 0 n) -> may_use s false b = true -> atomOK (insOf n) (outsOf n) s b ("e.in" ++ showNat i).
Proof.
  intros Hi M. split; try reflexivity; try discriminate.
  - exact (show_id i).
  - intros _ k K. cbn in K. repeat (destruct K as [<-|K]; [reflexivity|]). destruct K.
  - apply noNl_app; [|apply show_noNl]. intros a Ha. cbn in Ha. repeat (destruct Ha as [<-|Ha]; [discriminate|]). destruct Ha.
  - cbn [LtlSpec.usable ltlmopVar append]. rewrite M, andb_true_r. apply orb_true_iff. left. apply existsb_exists. exists ("in" ++ showNat i)%string. split; [|now apply String.eqb_eq].
    unfold insOf. apply in_map_iff. exists i. auto.
Qed.
Lemma out_ok n s b i : In i (seq 0 n) -> may_use s true b = true -> atomOK (insOf n) (outsOf n) s b ("s.out" ++ showNat i).
Proof.
  intros Hi M. split; try reflexivity; try discriminate.
  - exact (show_id i).
  - intros _ k K. cbn in K. repeat (destruct K as [<-|K]; [reflexivity|]). destruct K.
  - apply noNl_app; [|apply show_noNl]. intros a Ha. cbn in Ha. repeat (destruct Ha as [<-|Ha]; [discriminate|]). destruct Ha.
  - cbn [LtlSpec.usable ltlmopVar append]. rewrite M, andb_true_r. apply orb_true_iff. right. apply existsb_exists. exists ("out" ++ showNat i)%string. split; [|now apply String.eqb_eq].
    unfold outsOf. apply in_map_iff. exists i. auto.
Qed.
Lemma atomsIn_ok n s b x : may_use s false b = true -> In x (atomsIn n) -> atomOK (insOf n) (outsOf n) s b x.
Proof. intros M H. apply in_map_iff in H. destruct H as (i & <- & Hi). now apply in_ok. Qed.
Lemma atoms_ok n s b x : may_use s false b = true -> may_use s true b = true -> In x (atomsIn n ++ atomsOut n) -> atomOK (insOf n) (outsOf n) s b x.
Proof. intros M M' H. apply in_app_or in H. destruct H as [H|H]; [now apply atomsIn_ok|]. apply in_map_iff in H. destruct H as (i & <- & Hi). now apply out_ok. Qed.

Lemma none_ok n m s b x : In x [] -> atomOK n m s b x.
Proof. intros []. Qed.
Lemma loop_fits n st sl bl (live : bool) W N ds t rest :
  (forall x, In x W -> atomOK (insOf n) (outsOf n) (if live then sl else st) (if live then bl else false) x) ->
  (forall x, In x N -> atomOK (insOf n) (outsOf n) (if live then sl else st) true x) -> (live = true -> N = []) ->
  ltlProperties (operator live) W N ds = GOk t rest ->
  exists items, t = unlines (map lineFor items) /\ Forall (fits (insOf n) (outsOf n) st sl bl) items.
Proof.
  intros HW HN EN E. destruct (ltlLoop_spec _ _ _ _ _ _ _ HW HN _ _ _ _ E) as (ps & -> & F). exists (map (pair live) ps). split; [reflexivity|].
  rewrite Forall_map. eapply Forall_impl; [|exact F]. intros p G. unfold fits. cbn [fst snd]. destruct live; [rewrite (EN eq_refl) in G; exact G|]. eapply good_mono. exact G.
Qed.

Theorem ltlText_spec n ds text rest : ltlText n ds = GOk text rest -> exists a g assumption guarantee,
  ltlmopFile (file_lines text) a g /\ entryText a assumption /\ entryText g guarantee /\ plainText a /\ plainText g /\
  parts initialOf [assumption] = [LTrue] /\ parts initialOf [guarantee] = [LTrue] /\
  translatable ltlmopAtom [assumption] [guarantee] = true /\ wellScoped ltlmopVar (insOf n) (outsOf n) [assumption] [guarantee] = true.
Proof.
  unfold ltlText. intros E.
  destruct (ltlProperties "[]" (atomsIn n) [] ds) as [a1 ds1| | |] eqn:E1; try discriminate E. cbn [gbind] in E.
  destruct (ltlProperties "[]" (atomsIn n ++ atomsOut n) (atomsIn n) ds1) as [a2 ds2| | |] eqn:E2; try discriminate E. cbn [gbind] in E.
  destruct (ltlProperties "[]<>" (atomsIn n ++ atomsOut n) [] ds2) as [a3 ds3| | |] eqn:E3; try discriminate E. cbn [gbind] in E.
  destruct (ltlProperties "[]" (atomsIn n ++ atomsOut n) [] ds3) as [g1 ds4| | |] eqn:E4; try discriminate E. cbn [gbind] in E.
  destruct (ltlProperties "[]" (atomsIn n ++ atomsOut n) (atomsIn n ++ atomsOut n) ds4) as [g2 ds5| | |] eqn:E5; try discriminate E. cbn [gbind] in E.
  destruct (ltlProperties "[]<>" (atomsIn n ++ atomsOut n) [] ds5) as [g3 ds6| | |] eqn:E6; try discriminate E. cbn [gbind] in E.
  match type of E with GOk ?t _ = _ => assert (X : t = text) by congruence end. clear E.
  destruct (loop_fits n SEnvTrans SEnvLive false false _ _ _ _ _ (fun x => atomsIn_ok n SEnvTrans false x eq_refl) (none_ok _ _ _ _) (fun H : false = true => ltac:(discriminate H)) E1) as (i1 & -> & F1).
  destruct (loop_fits n SEnvTrans SEnvLive false false _ _ _ _ _ (fun x => atoms_ok n SEnvTrans false x eq_refl eq_refl) (fun x => atomsIn_ok n SEnvTrans true x eq_refl) (fun H : false = true => ltac:(discriminate H)) E2) as (i2 & -> & F2).
  destruct (loop_fits n SEnvTrans SEnvLive false true _ _ _ _ _ (fun x => atoms_ok n SEnvLive false x eq_refl eq_refl) (none_ok _ _ _ _) (fun _ => eq_refl) E3) as (i3 & -> & F3).
  destruct (loop_fits n SSysTrans SSysLive true false _ _ _ _ _ (fun x => atoms_ok n SSysTrans false x eq_refl eq_refl) (none_ok _ _ _ _) (fun H : false = true => ltac:(discriminate H)) E4) as (j1 & -> & G1).
  destruct (loop_fits n SSysTrans SSysLive true false _ _ _ _ _ (fun x => atoms_ok n SSysTrans false x eq_refl eq_refl) (fun x => atoms_ok n SSysTrans true x eq_refl eq_refl) (fun H : false = true => ltac:(discriminate H)) E5) as (j2 & -> & G2).
  destruct (loop_fits n SSysTrans SSysLive true true _ _ _ _ _ (fun x => atoms_ok n SSysLive true x eq_refl eq_refl) (none_ok _ _ _ _) (fun _ => eq_refl) E6) as (j3 & -> & G3).
  rewrite <- !unlines_app, <- !map_app in X.
  assert (F : Forall (fits (insOf n) (outsOf n) SEnvTrans SEnvLive false) (i1 ++ i2 ++ i3)) by (repeat (apply Forall_app; split; auto)).
  assert (G : Forall (fits (insOf n) (outsOf n) SSysTrans SSysLive true) (j1 ++ j2 ++ j3)) by (repeat (apply Forall_app; split; auto)).
  revert X F G. generalize (i1 ++ i2 ++ i3) (j1 ++ j2 ++ j3). intros it jt X F G. clear - X F G.
  destruct (body_spec _ _ _ _ _ _ F) as (B & fs & EB & NB & HB & TB & PB & FF). destruct (body_spec _ _ _ _ _ _ G) as (B' & gs & EB' & NB' & HB' & TB' & PB' & FF').
  assert (T : text = unlines ("LTLSPEC -- Assumptions" :: B ++ "LTLSPEC -- Guarantees" :: B')).
  { rewrite <- X, unlines_cons, unlines_app, unlines_cons, <- EB, <- EB'. unfold opening. rewrite !sapp_assoc. reflexivity. }
  assert (C : forall s, forallb (fun a => negb (a =? "010")%char) (list_ascii_of_string s) = true -> noNl s).
  { intros s K a Ha. rewrite forallb_forall in K. specialize (K a Ha). intros ->. discriminate K. }
  exists (joined B), (joined B'), (wraps fs), (wraps gs). split; [|split; [exact TB|split; [exact TB'|split; [exact PB|split; [exact PB'|split; [apply parts_initial|split; [apply parts_initial|]]]]]]].
  - rewrite T, file_lines_unlines.
    + exists [], "LTLSPEC -- Assumptions", B, "LTLSPEC -- Guarantees", B'. split; [reflexivity|]. split; [|repeat split]. cbn [app]. rewrite existsb_app. unfold isHeader in HB, HB'. now rewrite HB, HB'.
    + constructor; [now apply C|]. apply Forall_app. split; [exact NB|]. constructor; [now apply C|exact NB'].
  - destruct (parts_ok _ _ _ _ _ _ FF) as (A1 & A2 & A3 & A4). destruct (parts_ok _ _ _ _ _ _ FF') as (B1 & B2 & B3 & B4). unfold translatable, wellScoped. rewrite !parts_initial, A1, A2, A4, B1, B2, B3, B4.
    assert (A3' : forallb (stepFormula ltlmopAtom true) (parts recurringOf [wraps fs]) = true).
    { apply forallb_forall. intros f Hf. rewrite forallb_forall in A3. apply step_mono. auto. }
    rewrite A3'. split; reflexivity.
Qed.

(** ** The file of the variables *)

Lemma name_ok pre i : In pre ["in"; "out"] -> name (pre ++ showNat i) = true.
Proof.
  intros [<-|[<-|[]]]; unfold name; cbn [String.eqb negb andb append]; rewrite andb_true_iff; split; try reflexivity; exact (show_id i).
Qed.
Lemma declare_edge pre i : In pre ["in"; "out"] -> edge (pre ++ showNat i ++ " : boolean;").
Proof.
  intros H. assert (C : forall s, forallb (fun a => negb (a =? "010")%char) (list_ascii_of_string s) = true -> noNl s).
  { intros s K a Ha. rewrite forallb_forall in K. specialize (K a Ha). intros ->. discriminate K. }
  split; [|split].
  - destruct H as [<-|[<-|[]]]; do 2 eexists; cbn; repeat split; reflexivity.
  - exists (pre ++ showNat i ++ " : boolean")%string, ";"%char. split; [now rewrite !sapp_assoc|reflexivity].
  - apply noNl_app; [apply C; destruct H as [<-|[<-|[]]]; reflexivity|]. apply noNl_app; [apply show_noNl|now apply C].
Qed.
Definition declText (pre : string) (i : nat) : string := (tab ++ tab ++ pre ++ showNat i ++ " : boolean;")%string.
Lemma strip_tab s : strip (tab ++ s) = strip s.
Proof. reflexivity. Qed.
Lemma declText_strip pre i : In pre ["in"; "out"] -> strip (declText pre i) = (pre ++ showNat i ++ " : boolean;")%string.
Proof. intros H. unfold declText. rewrite !strip_tab. apply edge_strip. now apply declare_edge. Qed.
Lemma declText_noNl pre i : In pre ["in"; "out"] -> noNl (declText pre i).
Proof.
  intros H. destruct (declare_edge pre i H) as (_ & _ & N). unfold declText. intros a [<-|[<-|Ha]]; [discriminate..|]. exact (N a Ha).
Qed.
Lemma declLines pre l : sconcat (map (fun i => declareLine (pre ++ showNat i)) l) = unlines (map (declText pre) l).
Proof. unfold unlines. rewrite map_map. f_equal. apply map_ext. intros i. unfold declareLine, declText. now rewrite !sapp_assoc. Qed.
Lemma declarations_text pre l : In pre ["in"; "out"] -> declarations (map (declText pre) l) (map (fun i => pre ++ showNat i)%string l).
Proof.
  intros H. induction l as [|i l IH]; [constructor|]. cbn [map]. apply (decl_name _ _ _ "boolean;"); auto; [|now apply name_ok]. rewrite (declText_strip pre i H). now rewrite sapp_assoc.
Qed.
Lemma smvText_spec n : smvFile (file_lines (smvText n)) (insOf n) (outsOf n).
Proof.
  assert (I1 : In "in" ["in"; "out"]) by (now left). assert (I2 : In "out" ["in"; "out"]) by (right; now left).
  assert (C : forall s, forallb (fun a => negb (a =? "010")%char) (list_ascii_of_string s) = true -> noNl s).
  { intros s K a Ha. rewrite forallb_forall in K. specialize (K a Ha). intros ->. discriminate K. }
  set (pre := ["-- Skeleton SMV file"; "-- (Generated by the Fuzzer) "; ""; "MODULE main"; "    VAR"; "        e : env();"; "        s : sys();"; ""]).
  set (ls := "    VAR" :: map (declText "in") (seq 0 n)). set (ls' := "    VAR" :: map (declText "out") (seq 0 n)).
  assert (T : smvText n = unlines (pre ++ "MODULE env -- inputs" :: ls ++ "MODULE sys -- outputs" :: ls')).
  { rewrite unlines_app, unlines_cons, unlines_app, unlines_cons. unfold ls, ls'. rewrite !unlines_cons, <- !declLines. unfold smvText, pre. rewrite !unlines_cons, unlines_nil, !sapp_assoc. reflexivity. }
  assert (ND : forall q l, In q ["in"; "out"] -> Forall noNl (map (declText q) l)) by (intros q l H; rewrite Forall_map, Forall_forall; intros i _; now apply declText_noNl).
  rewrite T, file_lines_unlines.
  - exists pre, "MODULE env -- inputs", ls, "MODULE sys -- outputs", ls'. split; [reflexivity|]. split; [|split; [reflexivity|split; [reflexivity|]]].
    + assert (M : forall q l, In q ["in"; "out"] -> existsb (fun l => beginsWith "MODULE env" l || beginsWith "MODULE sys" l) (map (declText q) l) = false).
      { intros q l H. induction l as [|i l IH]; [reflexivity|]. cbn [map existsb]. rewrite IH. unfold beginsWith. rewrite (declText_strip q i H). destruct H as [<-|[<-|[]]]; reflexivity. }
      rewrite !existsb_app. unfold ls, ls'. cbn [existsb]. rewrite !M by assumption. reflexivity.
    + assert (V : forall x y, strip "    VAR" <> (x ++ " : " ++ y)%string).
      { intros x y E. change (strip "    VAR") with "VAR" in E. do 3 (destruct x as [|? x]; [discriminate E|injection E as _ E; cbn [append] in E]). destruct x; discriminate E. }
      split; (apply decl_other; [exact V|]); now apply declarations_text.
  - apply Forall_app. split; [repeat (constructor; [now apply C|]); constructor|]. constructor; [now apply C|]. apply Forall_app. split; [constructor; [now apply C|auto]|]. constructor; [now apply C|]. constructor; [now apply C|auto].
Qed.
Lemma names_ok n : forallb name (insOf n ++ outsOf n) = true.
Proof.
  rewrite forallb_app. apply andb_true_iff. split; apply forallb_forall; intros x H; apply in_map_iff in H; destruct H as (i & <- & _); apply name_ok; cbn; auto.
Qed.

(** ** Every test ends *)

Lemma makeLtl_proceeds : forall fuel W N ds, length ds < fuel -> proceeds ds (makeLtl fuel W N ds).
Proof.
  induction fuel as [|fuel IH]; intros W N ds B; [lia|]. cbn [makeLtl].
  assert (CO : proceeds ds (chooseOp (match N with [] => false | _ => true end) ds)).
  { generalize (match N with [] => false | _ => true end). intros cn. clear. induction ds as [|d ds IH]; [exact I|]. cbn [chooseOp]. destruct (_ && _); [|cbn; lia].
    destruct (chooseOp cn ds); cbn [proceeds length] in *; auto; lia. }
  apply proceeds_bind; [exact CO|]. intros op ds1 L1.
  assert (ONE : forall W N ds2 (f : string -> string), length ds2 <= length ds1 -> match gbind (makeLtl fuel W N ds2) (fun p ds => GOk (f p) ds) with GOk _ rest => length rest <= length ds2 | GMore => True | _ => False end).
  { intros W' N' ds2 f L. pose proof (IH W' N' ds2 ltac:(lia)) as P. destruct (makeLtl fuel W' N' ds2); cbn [proceeds gbind] in *; auto; lia. }
  assert (TWO : forall f : string -> string -> string, match gbind (makeLtl fuel W N ds1) (fun p ds => gbind (makeLtl fuel W N ds) (fun q ds => GOk (f p q) ds)) with GOk _ rest => length rest <= length ds1 | GMore => True | _ => False end).
  { intros f. pose proof (IH W N ds1 ltac:(lia)) as P. destruct (makeLtl fuel W N ds1) as [p ds2| | |]; cbn [proceeds gbind] in *; auto. pose proof (IH W N ds2 ltac:(lia)) as P2. destruct (makeLtl fuel W N ds2); cbn [proceeds gbind] in *; auto; lia. }
  destruct (op =? "!")%string; [now apply (ONE W N ds1)|]. destruct (op =? "next")%string; [now apply (ONE N [] ds1 (fun p => ("next(" ++ p ++ ")")%string))|].
  destruct (op =? "&")%string; [exact (TWO (fun p q => ("((" ++ p ++ ")&(" ++ q ++ "))")%string))|]. destruct (op =? "|")%string; [exact (TWO (fun p q => ("((" ++ p ++ ")|(" ++ q ++ "))")%string))|].
  destruct (op =? "AP")%string; [|lia]. destruct W as [|w W]; [lia|]. pose proof (choice_proceeds (w :: W) ds1 ltac:(discriminate)) as P. destruct (choice (w :: W) ds1); cbn [proceeds] in P; auto; lia.
Qed.
Lemma ltlLoop_proceeds o W N : forall fuel ds, length ds < fuel -> proceeds ds (ltlLoop fuel o W N ds).
Proof.
  induction fuel as [|fuel IH]; intros ds B; [lia|]. cbn [ltlLoop]. destruct ds as [|d ds]; [exact I|]. unfold chance. cbn [draw gbind]. cbn [length] in B. destruct (negb (d =? 0)%nat); [|cbn; lia].
  pose proof (makeLtl_proceeds (S (length ds)) W N ds ltac:(lia)) as P. destruct (makeLtl (S (length ds)) W N ds) as [p ds1| | |]; cbn [proceeds gbind length] in *; auto.
  specialize (IH ds1 ltac:(lia)). destruct (ltlLoop fuel o W N ds1); cbn [proceeds gbind length] in *; auto; lia.
Qed.
Lemma ltlText_outcome n ds : ltlText n ds = GMore \/ exists text rest, ltlText n ds = GOk text rest.
Proof.
  unfold ltlText. assert (P : forall o W N ds, proceeds ds (ltlProperties o W N ds)) by (intros; apply ltlLoop_proceeds; lia).
  repeat match goal with |- context [gbind (ltlProperties ?o ?W ?N ?d) _] => let Q := fresh in pose proof (P o W N d) as Q; destruct (ltlProperties o W N d); cbn [proceeds gbind] in *; try contradiction; [|now left] end.
  right. eauto.
Qed.
