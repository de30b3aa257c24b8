(** * Properties: replacing integer variables by differences *)

From Coq Require Import String Ascii List Bool Arith NArith ZArith Lia.
From Verif Require Import FormulaSpec FileSpec StructFileSpec StructuredSpec StructGrammar Structured StructReadProofs SubstSpec Subst SubstProofs SubstFileSpec SubstFile SubstFileProofs.
Import ListNotations.
Local Open Scope string_scope.

(** C92.  [bools] are the names of Boolean values in the line and [bools'] those in the new file; a replaced variable x
    has the value of [plus x] minus the value of [minus x].  Every line with a formula in which integers can be
    replaced is translated, and the new line has the meaning of the line. *)
Theorem C92_line : forall bools bools' repl (plus minus : string -> num) line f,
  reads bools line f -> substitutable false f ->
  (forall b, In b bools -> isWordToken b = true \/ exists r, b = String "#" r) ->
  (forall w, In w (boolWords false f) -> In w bools') ->
  (forall x, In x (integerWords f) -> match repl x with
     | Some (p, m) => readsNumber bools' p (plus x) /\ readsNumber bools' m (minus x)
     | None => ~ In x bools'
     end) ->
  exists out f', substituteLine bools repl line = Ret out /\ reads bools' out f' /\
    forall D D' bv nv nv',
      (forall x, In x (integerWords f) -> wordValue nv x = match repl x with
         | Some _ => numValue D' nv' false (plus x) - numValue D' nv' false (minus x)
         | None => wordValue nv' x
         end)%Z ->
      truth D' bv nv' false f' = truth D bv nv false f.
Proof. exact substitute_line. Qed.
Print Assumptions C92_line.

(** A line with a comparison is only translated if it is such a formula: otherwise the tool stops.  (The word is a
    name for this tool, but a symbol in the language.) *)
Theorem C92_only : forall bools repl line out c,
  (forall pre post, line <> pre ++ "LEASTSIGNIFICANTBITOVERWRITES" ++ post) ->
  (forall b, In b bools -> isWordToken b = true \/ exists r, b = String "#" r) ->
  In c ["<"; ">"; "="]%char -> occursIn c line -> ~ occursIn "#" line -> ~ occursIn "$" line ->
  substituteLine bools repl line = Ret out -> exists f, reads bools line f /\ substitutable false f.
Proof. exact substitute_only. Qed.
Print Assumptions C92_only.
(** Every line that is changed is such a formula. *)
Theorem C92_changed : forall bools repl line out,
  (forall pre post, line <> pre ++ "LEASTSIGNIFICANTBITOVERWRITES" ++ post) ->
  substituteLine bools repl line = Ret out -> out = line \/ exists f, reads bools line f /\ substitutable false f.
Proof. exact substitute_changed. Qed.
Print Assumptions C92_changed.
(** Comments and lines in prefix notation (with blanks between the words) are not changed. *)
Theorem C92_copied : forall bools repl line,
  (exists r, strip line = String "#" r) \/
  (exists var bound loose f, gram var bound loose 0 f (words line) /\ blanksOnly (strip line) /\
     forall w i, In w (words line) -> var w i -> In (fst (unprime w)) bools) ->
  substituteLine bools repl line = Ret line.
Proof. exact substitute_copied. Qed.
Print Assumptions C92_copied.
Example C92_copied_example : substituteLine ["b"; "b'"] (fun _ => None) " | b !  b' " = Ret " | b !  b' " /\
  exists f, gram (fun w i => In (w, i) [("b", 0); ("b'", 1)]%nat) maxNumber false 0 f (words " | b !  b' ").
Proof.
  split; [vm_compute; reflexivity|]. exists (FOr (FVar 0) (FNot (FVar 1))). change (words " | b !  b' ") with ("|" :: ["b"] ++ ["!"; "b'"])%list. constructor; [constructor; [reflexivity|now left]|]. apply g_not. constructor; [reflexivity|right; now left].
Qed.
(** Lines for which the tool stops: a product, a next operator above an integer, and a comparison that is no formula. *)
Example C92_only_example : map (substituteLine ["b"; "b'"] (fun _ => None)) ["2*x<3"; "X(x=1)"; "x<b"; "b^x=2"] = [Raise; Raise; Raise; Raise].
Proof. vm_compute. reflexivity. Qed.

Definition exampleRepl (x : string) : option (string * string) :=
  if String.eqb x "x" then Some ("xa", "xb+1") else if String.eqb x "x'" then Some ("xa'", "xb'+1") else None.
Definition exampleLine : string := "X b -> x + 3 < y | x' = x + x".
Definition exampleFormula : sfml :=
  SImp (SUnary ONext (SAssign "b"))
    (SOr (SCalc (Add (NumID "x") (Numeral 3)) CLt (NumID "y")) (SCalc (NumID "x'") CEq (Add (NumID "x") (NumID "x")))).
(** The hypotheses of [C92_line] hold for a line with next values, numbers on both sides and several variables. *)
Example C92_line_example :
  reads ["b"; "b'"] exampleLine exampleFormula /\ substitutable false exampleFormula /\
  (forall w, In w (boolWords false exampleFormula) -> In w ["b"; "b'"]) /\
  (forall x, In x (integerWords exampleFormula) -> match exampleRepl x with
     | Some (p, m) => readsNumber ["b"; "b'"] p (NumID (if String.eqb x "x" then "xa" else "xa'")) /\
                      readsNumber ["b"; "b'"] m (Add (NumID (if String.eqb x "x" then "xb" else "xb'")) (Numeral 1))
     | None => ~ In x ["b"; "b'"]
     end) /\
  substituteLine ["b"; "b'"] exampleRepl exampleLine =
    Ret "((b') -> (((((xa)+(3))<((y)+(xb+1)))|(((xa')+(xb+1+xb+1))=((((xa)+(xa)))+(xb'+1))))))".
Proof.
  split; [apply parseLTL_spec; vm_compute; reflexivity|]. split; [cbn; repeat split; intuition discriminate|]. split; [cbn; intuition|]. split; [|vm_compute; reflexivity].
  intros x Hx. cbn in Hx.
  assert (Sum : forall w, number 3 [("numID", w); sym "+"; ("numeral", "1")] (Add (NumID w) (Numeral 1))).
  { intros w. apply (n_add [("numID", w)] [("numeral", "1")]); [do 2 (apply n_up; [lia|]); apply n_id|do 3 (apply n_up; [lia|]); apply (n_numeral "1")]. }
  assert (One : forall w, number 3 [("numID", w)] (NumID w)) by (intros w; do 3 (apply n_up; [lia|]); apply n_id).
  repeat (destruct Hx as [<-|Hx]; [first [cbn; intuition discriminate | (split; eexists; (split; [apply tokenize_lexes|vm_compute]; [apply One || apply Sum]))]|]). destruct Hx.
Qed.

(** The comment in the tool says that numbers in brackets are fine.  They are not: the tool stops. *)
Theorem C92_brackets_refuted : exists bools repl line f,
  reads bools line f /\ (exists a, f = SCalc (NumBrackets (Add (NumID "x") a)) CEq (Numeral 2)) /\ substituteLine bools repl line = Raise.
Proof.
  exists [], (fun _ => None), "(x+1)=2", (SCalc (NumBrackets (Add (NumID "x") (Numeral 1))) CEq (Numeral 2)). split; [apply parseLTL_spec; vm_compute; reflexivity|]. split; [eauto|vm_compute; reflexivity].
Qed.
Print Assumptions C92_brackets_refuted.

(** The next value of a replaced variable is not replaced if the file with the replacements has no line for it. *)
Theorem C92_next_refuted : exists bools repl x line f out f',
  repl x <> None /\ reads bools line f /\ In (prime true x) (integerWords f) /\ substituteLine bools repl line = Ret out /\ reads bools out f' /\ In (prime true x) (integerWords f').
Proof.
  exists [], (fun y => if String.eqb y "x" then Some ("xa", "xb") else None), "x", "x'=x", (SCalc (NumID "x'") CEq (NumID "x")). do 2 eexists. split; [discriminate|]. split; [apply parseLTL_spec; vm_compute; reflexivity|]. split; [now left|].
  split; [vm_compute; reflexivity|]. split; [apply parseLTL_spec; vm_compute; reflexivity|]. cbn. auto.
Qed.
Print Assumptions C92_next_refuted.

(** ** Files *)

(** The file with the replacements: lines with two parts are for declarations, lines with three parts for values, the
    last line counts, and comments and other lines are ignored. *)
Theorem C92_replacements : forall text x,
  (forall d, definitions (readReplacements text) x = Some d <-> lastEntry definitionLine (file_lines text) x d) /\
  (forall pm, expressions (readReplacements text) x = Some pm <-> lastEntry expressionLine (file_lines text) x pm).
Proof. exact read_replacements. Qed.
Print Assumptions C92_replacements.

(** For every file with the sections of the language, the tool prints a file if it can translate all lines with
    properties.  The new file has the same sections: their declarations are the old ones or those that replace them,
    and their properties are the translated lines in the same order.  [bools] are the declared names of Boolean
    values, and words of comments between the declarations. *)
Theorem C92_file : forall text rtext L,
  let r := readReplacements rtext in
  layout None (file_lines text) = Some L ->
  (forall x d, definitions r x = Some d -> startsPlain d) ->
  (forall x p m, expressions r x = Some (p, m) -> startsPlain p) ->
  (forall s line pre post, In (s, line) L -> formulaSection s = true -> line <> pre ++ "LEASTSIGNIFICANTBITOVERWRITES" ++ post) ->
  exists bools,
    (forall b, declaresBoolean (linesOf SInput L ++ linesOf SOutput L) b -> In b bools) /\
    (forall b, In b bools -> declaresBoolean (linesOf SInput L ++ linesOf SOutput L) b \/ exists c, b = String "#" c) /\
    ((exists out, performReplacement text rtext = Ret out) <->
     forall s line, In (s, line) L -> formulaSection s = true -> exists o, substituteLine bools (expressions r) line = Ret o) /\
    (forall out, performReplacement text rtext = Ret out ->
     exists L', layout None (file_lines out) = Some L' /\
       (forall s, formulaSection s = false -> linesOf s L' = map (fun x => match definitions r x with Some d => strip d | None => x end) (linesOf s L)) /\
       (forall s, formulaSection s = true -> Forall2 (fun line line' => exists o, substituteLine bools (expressions r) line = Ret o /\ line' = strip o) (linesOf s L) (linesOf s L'))).
Proof. exact replacement_file. Qed.
Print Assumptions C92_file.

(** If integers can be replaced in all properties, then the tool prints a file, and its properties are those of the old
    file in the same order and with the same meaning. *)
Theorem C92_meaning : forall names bools' (plus minus : string -> num) text rtext L,
  let r := readReplacements rtext in
  layout None (file_lines text) = Some L ->
  (forall b, In b names <-> declaresBoolean (linesOf SInput L ++ linesOf SOutput L) b) ->
  (forall b, In b names -> isWordToken b = true) ->
  (forall x d, definitions r x = Some d -> startsPlain d) ->
  (forall x p m, expressions r x = Some (p, m) -> startsPlain p) ->
  (forall s line pre post, In (s, line) L -> formulaSection s = true -> line <> pre ++ "LEASTSIGNIFICANTBITOVERWRITES" ++ post) ->
  (forall s line, In (s, line) L -> formulaSection s = true -> exists f, reads names line f /\ substitutable false f /\
     (forall w, In w (boolWords false f) -> In w bools') /\
     (forall x, In x (integerWords f) -> match expressions r x with
        | Some (p, m) => readsNumber bools' p (plus x) /\ readsNumber bools' m (minus x)
        | None => ~ In x bools'
        end)) ->
  exists out L', performReplacement text rtext = Ret out /\ layout None (file_lines out) = Some L' /\
    (forall s, formulaSection s = false -> linesOf s L' = map (fun x => match definitions r x with Some d => strip d | None => x end) (linesOf s L)) /\
    (forall s, formulaSection s = true -> Forall2 (fun line line' => exists o f f', line' = strip o /\ reads names line f /\ reads bools' o f' /\
       forall D D' bv nv nv',
         (forall x, In x (integerWords f) -> wordValue nv x = match expressions r x with
            | Some _ => numValue D' nv' false (plus x) - numValue D' nv' false (minus x)
            | None => wordValue nv' x
            end)%Z ->
         truth D' bv nv' false f' = truth D bv nv false f) (linesOf s L) (linesOf s L')).
Proof. exact replacement_meaning. Qed.
Print Assumptions C92_meaning.

Definition nl : string := String "010" "".
Definition exampleText : string :=
  "# example" ++ nl ++ "[INPUT]" ++ nl ++ "b" ++ nl ++ "x:0...3" ++ nl ++ "[OUTPUT]" ++ nl ++ "## result" ++ nl ++ "c" ++ nl ++ "[SYS_TRANS]" ++ nl ++ " # two lines" ++ nl ++ "b -> x<2" ++ nl ++ " c' <-> x' = 1 " ++ nl.
Definition exampleReplacements : string :=
  "# differences" ++ nl ++ "x:0...3,xa:0...7" ++ nl ++ "x,old,old" ++ nl ++ "x,xa,1" ++ nl ++ "x',xa',1".
Definition exampleItems : items := [(SInput, "b"); (SInput, "x:0...3"); (SOutput, "c"); (SSysTrans, "b -> x<2"); (SSysTrans, "c' <-> x' = 1")].
(** The hypotheses hold for a file with comments and two properties, and the printed file is as stated. *)
Example C92_file_example :
  let r := readReplacements exampleReplacements in
  layout None (file_lines exampleText) = Some exampleItems /\
  (forall x d, definitions r x = Some d -> startsPlain d) /\
  (forall x p m, expressions r x = Some (p, m) -> startsPlain p) /\
  (forall b, In b ["b"; "b'"; "c"; "c'"] <-> declaresBoolean (linesOf SInput exampleItems ++ linesOf SOutput exampleItems) b) /\
  (forall s line, In (s, line) exampleItems -> formulaSection s = true -> exists f, reads ["b"; "b'"; "c"; "c'"] line f /\ substitutable false f /\
     (forall w, In w (boolWords false f) -> In w ["b"; "b'"; "c"; "c'"]) /\
     (forall x, In x (integerWords f) -> match expressions r x with
        | Some (p, m) => readsNumber ["b"; "b'"; "c"; "c'"] p (NumID (if String.eqb x "x" then "xa" else "xa'")) /\ readsNumber ["b"; "b'"; "c"; "c'"] m (Numeral 1)
        | None => ~ In x ["b"; "b'"; "c"; "c'"]
        end)) /\
  performReplacement exampleText exampleReplacements =
    Ret ("[INPUT]" ++ nl ++ "b" ++ nl ++ "xa:0...7" ++ nl ++ nl ++ "[OUTPUT]" ++ nl ++ "## result" ++ nl ++ "c" ++ nl ++ nl ++
         "[SYS_TRANS]" ++ nl ++ "# two lines" ++ nl ++ "((b) -> (xa<((2)+(1))))" ++ nl ++ "((c') <-> (xa'=((1)+(1))))" ++ nl ++ nl).
Proof.
  cbv zeta. split; [vm_compute; reflexivity|]. split; [|split; [|split; [|split; [|vm_compute; reflexivity]]]].
  - intros x d. assert (E : definitions (readReplacements exampleReplacements) x = if String.eqb x "x:0...3" then Some "xa:0...7" else None) by (vm_compute; reflexivity). rewrite E. clear E. destruct (String.eqb x "x:0...3"); [|discriminate]. intros E. injection E as <-. exists "x"%char, "a:0...7". repeat split; discriminate.
  - intros x p m. assert (E : expressions (readReplacements exampleReplacements) x = if String.eqb x "x'" then Some ("xa'", "1") else if String.eqb x "x" then Some ("xa", "1") else if String.eqb x "x" then Some ("old", "old") else None) by (vm_compute; reflexivity). rewrite E. clear E. destruct (String.eqb x "x'"); [intros E; injection E as <- <-; exists "x"%char, "a'"; repeat split; discriminate|].
    destruct (String.eqb x "x"); [|discriminate]. intros E. injection E as <- <-. exists "x"%char, "a". repeat split; discriminate.
  - intros b. change (linesOf SInput exampleItems ++ linesOf SOutput exampleItems)%list with ["b"; "x:0...3"; "c"]. split.
    + intros H. assert (N : forall y, In y ["b"; "c"] -> ~ occursIn ":" y) by (intros y [<-|[<-|[]]]; unfold occursIn; cbn; intuition discriminate).
      cbn in H. destruct H as [<-|[<-|[<-|[<-|[]]]]]; [exists "b"|exists "b"|exists "c"|exists "c"]; (split; [cbn; auto|]); (split; [apply N; cbn; auto|]); auto.
    + intros (y & H1 & H2 & H3). cbn in H1. destruct H1 as [<-|[<-|[<-|[]]]]; [| |]; destruct H3 as [->| ->]; cbn; auto; elim H2; unfold occursIn; cbn; auto.
  - assert (ID : forall w, isWordToken w = true -> ~ In w keyWords -> ~ In w ["b"; "b'"; "c"; "c'"] -> readsNumber ["b"; "b'"; "c"; "c'"] w (NumID w)).
    { intros w T K N. exists [("numID", w)]. split; [|do 3 (apply n_up; [lia|]); apply n_id]. rewrite <- (OutputProofs.sapp_nil w) at 1. apply lex_word; [exact T|exact I|now apply wt_num|apply lex_end]. }
    assert (ONE : readsNumber ["b"; "b'"; "c"; "c'"] "1" (Numeral 1)).
    { exists [("numeral", "1")]. split; [apply (lex_number _ "1" ""); [discriminate|reflexivity|exact I|apply lex_end]|do 3 (apply n_up; [lia|]); apply (n_numeral "1")]. }
    assert (X : expressions (readReplacements exampleReplacements) "x" = Some ("xa", "1") /\ expressions (readReplacements exampleReplacements) "x'" = Some ("xa'", "1")) by (split; vm_compute; reflexivity).
    destruct X as [X1 X2]. intros s line H FS. cbn in H. destruct H as [H|[H|[H|[H|[H|[]]]]]]; injection H as <- <-; try discriminate FS.
    + exists (SImp (SAssign "b") (SCalc (NumID "x") CLt (Numeral 2))). split; [apply parseLTL_spec; vm_compute; reflexivity|]. split; [cbn; repeat split; discriminate|]. split; [cbn; intuition|].
      intros x [<-|[]]. rewrite X1. split; [|exact ONE]. apply ID; [reflexivity|cbn; intuition discriminate..].
    + exists (SBiimp (SAssign "c'") (SCalc (NumID "x'") CEq (Numeral 1))). split; [apply parseLTL_spec; vm_compute; reflexivity|]. split; [cbn; repeat split; discriminate|]. split; [cbn; intuition|].
      intros x [<-|[]]. rewrite X2. split; [|exact ONE]. apply ID; [reflexivity|cbn; intuition discriminate..].
Qed.
