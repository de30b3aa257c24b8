(** * Properties C87 and C88: the translators for RATSY and LTLMop *)

From Coq Require Import String Ascii List Bool Arith Lia.
From Verif Require Import Synth FormulaSpec Parser Spec FileSpec Execute Structured StructParse LtlSpec Ltl LtlParseProofs LtlMain.
Import ListNotations.
Local Open Scope string_scope.

(** ** C87: RATSY *)

(** The parser ends for every text, and never looks up an entry that its tables do not have. *)
Theorem C87_parser_total ts : parse ts <> Fuel /\ parse ts <> Crash.
Proof. exact (parse_total ts). Qed.
Print Assumptions C87_parser_total.

(** A text is at most one formula. *)
Theorem C87_unambiguous text f g : reads text f -> reads text g -> f = g.
Proof. exact (reads_unique text f g). Qed.
Print Assumptions C87_unambiguous.

(** What is written into the sections of the slugs file says the same as the formulas. *)
Theorem C87_meaning atom varOf ins outs assumptions guarantees (pi : nat -> state) :
  translatable atom assumptions guarantees = true -> wellScoped varOf ins outs assumptions guarantees = true ->
  let g := ltlGame varOf ins outs assumptions guarantees in
  let w i := at_ varOf ins outs (pi i) in
  ((forall f, In f assumptions -> sat w 0 f) <->
    g_initE g (pi 0) = true /\ (forall n, g_safeE g (pi n) (pi (S n)) = true) /\ (forall p, In p (g_liveA g) -> inf_often p pi)) /\
  ((forall f, In f guarantees -> sat w 0 f) <->
    g_initS g (pi 0) = true /\ (forall n, g_safeS g (pi n) (pi (S n)) = true) /\ (forall p, In p (g_liveG g) -> inf_often p pi)).
Proof. intros T W. exact (meaning atom varOf ins outs assumptions guarantees T W pi). Qed.
Print Assumptions C87_meaning.

(** Exactly the documented files are translated. *)
Theorem C87_accepts text :
  (forall ins outs es gs, ratsyParts text ins outs es gs -> Forall plainText (es ++ gs)) ->
  (exists out, ratsyConversion text = Ret out) <->
  exists ins outs es gs assumptions guarantees, ratsyParts text ins outs es gs /\
    Forall2 reads es assumptions /\ Forall2 reads gs guarantees /\ translatable ratsyAtom assumptions guarantees = true.
Proof. exact (ratsy_accepts text). Qed.
Print Assumptions C87_accepts.

(** slugs decides the game of the formulas, and a system for the translated file satisfies the
    guarantees if the assumptions hold. *)
Theorem C87_answer text ins outs es gs assumptions guarantees :
  ratsyParts text ins outs es gs -> Forall2 reads es assumptions -> Forall2 reads gs guarantees -> Forall plainText (es ++ gs) ->
  forallb name (ins ++ outs) = true -> NoDup (ins ++ outs) ->
  translatable ratsyAtom assumptions guarantees = true -> wellScoped (fun x => x) ins outs assumptions guarantees = true ->
  let g := ltlGame (fun x => x) ins outs assumptions guarantees in
  exists out, ratsyConversion text = Ret out /\ forall ord,
    match executeFile ord out with
    | POk Realizable => realizable g /\ exists f, forall x, let w i := at_ (fun x => x) ins outs (play g f x i) in
        (forall a, In a assumptions -> sat w 0 a) -> forall a, In a guarantees -> sat w 0 a
    | POk Unrealizable => ~ realizable g
    | _ => False
    end.
Proof.
  intros RP RA RG P N D T W g. destruct (ratsy_answer text ins outs es gs assumptions guarantees RP RA RG P N D T W) as (out & E & H). exists out. split; [exact E|].
  intros ord. specialize (H ord). destruct (executeFile ord out) as [[]| | |]; auto. split; [exact H|]. destruct H as (f & H). exists f. intros x.
  exact (objective_sat ratsyAtom (fun x => x) ins outs assumptions guarantees T W (play g f x) (H x)).
Qed.
Print Assumptions C87_answer.

(** *** Examples *)
Lemma lexes_lexF' s : lexes s (lexF 0 s).
Proof. destruct (LtlReadProofs.lexes_total s) as (ts & L). now rewrite <- (lexes_lexF s ts L). Qed.
Definition plainB (s : string) : bool :=
  forallb (fun t => negb (String.eqb (fst t) "id") || forallb (fun k => negb (String.prefix k (snd t))) longKeys) (lexF 0 s).
Lemma plainB_ok s : plainB s = true -> plainText s.
Proof.
  intros H ts x k L I K. rewrite (lexes_lexF s ts L) in I. unfold plainB in H. rewrite forallb_forall in H. specialize (H _ I). cbn [fst snd] in H.
  change (String.eqb "id" "id") with true in H. cbn [negb orb] in H. rewrite forallb_forall in H. apply negb_true_iff. now apply H.
Qed.
Lemma reads_ok s ts f : lexF 0 s = ts -> formula 7 ts f -> reads s f.
Proof. intros <- F. exists (lexF 0 s). split; [apply lexes_lexF'|exact F]. Qed.
Lemma ups l l' ts f : l <= l' -> l' <= 7 -> formula l ts f -> formula l' ts f.
Proof. intros H. induction H as [|m H IH]; auto. intros K F. apply f_up; [lia|]. apply IH; [lia|exact F]. Qed.

Definition ratsyExample : string := "# requests and grants
[INPUT_VARIABLES]
r;
[OUTPUT_VARIABLES]
g;
[SYS_INITIAL]
g=0;
[SYS_TRANSITIONS]
G(r=0 -> X(g=0));
[ENV_FAIRNESS]
G(F(r=1));
[SYS_FAIRNESS]
G(F(g=1));
".
Definition ratsyFa : list ltl := [LGlobally (LFinally (LAtom "r" (Some true)))].
Definition ratsyFg : list ltl := [LAtom "g" (Some false); LGlobally (LImp (LAtom "r" (Some false)) (LNext (LAtom "g" (Some false)))); LGlobally (LFinally (LAtom "g" (Some true)))].
Example C87_example : ratsyConversion ratsyExample = Ret "[INPUT]
r


[OUTPUT]
g


[ENV_TRANS]

[ENV_LIVENESS]
r

[ENV_INIT]

[SYS_TRANS]
| ! ! r ! g'

[SYS_LIVENESS]
g'

[SYS_INIT]
! g

".
Proof. vm_compute. reflexivity. Qed.
Example C87_example_hyps : ratsyParts ratsyExample ["r"] ["g"] ["G(F(r=1))"] ["g=0"; "G(r=0 -> X(g=0))"; "G(F(g=1))"] /\
  Forall2 reads ["G(F(r=1))"] ratsyFa /\ Forall2 reads ["g=0"; "G(r=0 -> X(g=0))"; "G(F(g=1))"] ratsyFg /\
  Forall plainText (["G(F(r=1))"] ++ ["g=0"; "G(r=0 -> X(g=0))"; "G(F(g=1))"]) /\ forallb name ["r"; "g"] = true /\ NoDup ["r"; "g"] /\
  translatable ratsyAtom ratsyFa ratsyFg = true /\ wellScoped (fun x => x) ["r"] ["g"] ratsyFa ratsyFg = true /\
  executeFile (fun _ => true) (match ratsyConversion ratsyExample with Ret s => s | _ => "" end) = POk Realizable.
Proof.
  assert (GF : forall x, formula 7 [sym "G"; sym "("; sym "F"; sym "("; ("id", x); sym "="; sym "1"; sym ")"; sym ")"] (LGlobally (LFinally (LAtom x (Some true))))).
  { intros x. apply (ups 1); try lia. apply (f_unary (syms ["G"])); [apply p_globally; cbn; auto|]. apply (ups 0); try lia.
    apply (f_round [sym "F"; sym "("; ("id", x); sym "="; sym "1"; sym ")"]). apply (ups 1); try lia. apply (f_unary (syms ["F"])); [apply p_finally; cbn; auto|]. apply (ups 0); try lia.
    apply (f_round [("id", x); sym "="; sym "1"]). apply (ups 0); try lia. constructor. }
  split; [|split; [|split; [|split; [|split; [reflexivity|split; [|split; [reflexivity|split; [reflexivity|vm_compute; reflexivity]]]]]]]].
  - destruct (ratsyRead 0 (fun _ => "") (getlines ratsyExample)) as [st| |] eqn:E; [|vm_compute in E; discriminate E..].
    pose proof (ratsy_parts_sound _ _ E) as P. vm_compute in E. injection E as <-. exact P.
  - constructor; [|constructor]. eapply reads_ok; [vm_compute; reflexivity|]. apply GF.
  - constructor; [|constructor; [|constructor; [|constructor]]]; (eapply reads_ok; [vm_compute; reflexivity|]).
    + apply (ups 0); try lia. constructor.
    + apply (ups 1); try lia. apply (f_unary (syms ["G"])); [apply p_globally; cbn; auto|]. apply (ups 0); try lia.
      apply (f_round [("id", "r"); sym "="; sym "0"; sym "-"; sym ">"; sym "X"; sym "("; ("id", "g"); sym "="; sym "0"; sym ")"]). apply (ups 6); try lia.
      apply (f_binary 5 (syms ["-"; ">"]) LImp [("id", "r"); sym "="; sym "0"] [sym "X"; sym "("; ("id", "g"); sym "="; sym "0"; sym ")"]).
      * apply i_imp. cbn. auto.
      * apply (ups 0); try lia. constructor.
      * apply (ups 1); try lia. apply (f_unary (syms ["X"])); [apply p_next; cbn; auto|]. apply (ups 0); try lia. apply (f_round [("id", "g"); sym "="; sym "0"]). apply (ups 0); try lia. constructor.
    + apply GF.
  - repeat constructor; apply plainB_ok; vm_compute; reflexivity.
  - repeat constructor; cbn; intuition discriminate.
Qed.

(** *** Identifiers that begin with a keyword *)

(** tokenize finds next, TRUE and FALSE at the beginning of longer identifiers: the answer may be wrong
    for files with such variables. *)
Definition doorExample : string := "[OUTPUT_VARIABLES]
door; nextdoor;
[SYS_TRANSITIONS]
G(nextdoor=1);
G(door=0);
".
Definition doorFg : list ltl := [LGlobally (LAtom "nextdoor" (Some true)); LGlobally (LAtom "door" (Some false))].
Theorem C87_keywords_refuted : exists text ins outs es gs assumptions guarantees out ord,
  ratsyParts text ins outs es gs /\ Forall2 reads es assumptions /\ Forall2 reads gs guarantees /\ forallb name (ins ++ outs) = true /\ NoDup (ins ++ outs) /\
  translatable ratsyAtom assumptions guarantees = true /\ wellScoped (fun x => x) ins outs assumptions guarantees = true /\
  ratsyConversion text = Ret out /\ executeFile ord out = POk Unrealizable /\ realizable (ltlGame (fun x => x) ins outs assumptions guarantees).
Proof.
  exists doorExample, [], ["door"; "nextdoor"], [], ["G(nextdoor=1)"; "G(door=0)"], [], doorFg. eexists. exists (fun _ => true).
  split; [|split; [constructor|split; [|split; [reflexivity|split; [|split; [reflexivity|split; [reflexivity|split; [vm_compute; reflexivity|split; [vm_compute; reflexivity|]]]]]]]]].
  - destruct (ratsyRead 0 (fun _ => "") (getlines doorExample)) as [st| |] eqn:E; [|vm_compute in E; discriminate E..].
    pose proof (ratsy_parts_sound _ _ E) as P. vm_compute in E. injection E as <-. exact P.
  - constructor; [|constructor; [|constructor]]; (eapply reads_ok; [vm_compute; reflexivity|]); apply (ups 1); try lia; (apply (f_unary (syms ["G"])); [apply p_globally; cbn; auto|]); apply (ups 0); try lia.
    + apply (f_round [("id", "nextdoor"); sym "="; sym "1"]). apply (ups 0); try lia. constructor.
    + apply (f_round [("id", "door"); sym "="; sym "0"]). apply (ups 0); try lia. constructor.
  - repeat constructor; cbn; intuition discriminate.
  - exists (fun _ _ k => Nat.eqb k 1). intros x. set (g := ltlGame _ _ _ _ _).
    assert (P : forall n, play g (fun _ _ k => Nat.eqb k 1) x n 0 = false /\ play g (fun _ _ k => Nat.eqb k 1) x n 1 = true) by (intros [|n]; split; reflexivity).
    revert P. generalize (play g (fun _ _ k => Nat.eqb k 1) x). intros pi P _. split; [reflexivity|]. split.
    + intros n _. destruct (P n) as [P0 P1]. unfold g. cbn. unfold at_. cbn. now rewrite P0, P1.
    + intros _ _ p [].
Qed.
Print Assumptions C87_keywords_refuted.

(** ** C88: LTLMop *)

Theorem C88_accepts smv text ins outs a g :
  smvFile (file_lines smv) ins outs -> ltlmopFile (file_lines text) a g -> plainText a -> plainText g ->
  ((exists out, ltlmopConversion smv text = Ret out) <->
   exists assumption guarantee, entryText a assumption /\ entryText g guarantee /\ translatable dotted [assumption] [guarantee] = true).
Proof. exact (ltlmop_accepts smv text ins outs a g). Qed.
Print Assumptions C88_accepts.

Theorem C88_answer smv text ins outs a g assumption guarantee :
  smvFile (file_lines smv) ins outs -> ltlmopFile (file_lines text) a g ->
  entryText a assumption -> entryText g guarantee -> plainText a -> plainText g ->
  forallb name (ins ++ outs) = true -> NoDup (ins ++ outs) ->
  translatable ltlmopAtom [assumption] [guarantee] = true -> wellScoped ltlmopVar ins outs [assumption] [guarantee] = true ->
  let G := ltlGame ltlmopVar ins outs [assumption] [guarantee] in
  exists out, ltlmopConversion smv text = Ret out /\ forall ord,
    match executeFile ord out with
    | POk Realizable => realizable G /\ exists f, forall x, let w i := at_ ltlmopVar ins outs (play G f x i) in sat w 0 assumption -> sat w 0 guarantee
    | POk Unrealizable => ~ realizable G
    | _ => False
    end.
Proof.
  intros SF LF RA RG PA PG N D T W G. destruct (ltlmop_answer smv text ins outs a g assumption guarantee SF LF RA RG PA PG N D T W) as (out & E & H). exists out. split; [exact E|].
  intros ord. specialize (H ord). destruct (executeFile ord out) as [[]| | |]; auto. split; [exact H|]. destruct H as (f & H). exists f. intros x w A.
  apply (objective_sat ltlmopAtom ltlmopVar ins outs [assumption] [guarantee] T W (play G f x) (H x)); [|now left]. intros a' [<-|[]]. exact A.
Qed.
Print Assumptions C88_answer.

(** *** Example *)
Lemma entry_ok s ts f : lexF 0 s = (ts ++ [sym ";"])%list -> formula 7 ts f -> entryText s f.
Proof. intros E F. exists ts. split; [|exact F]. rewrite <- E. apply lexes_lexF'. Qed.
Definition smvExample : string := "MODULE main
MODULE env
VAR
  r : boolean;
MODULE sys
VAR
  g : boolean;
".
Definition ltlmopExample : string := "-- a comment
LTLSPEC -- Assumptions
  !e.r
  & []<>(e.r);
LTLSPEC -- Guarantees
  [](next(e.r) -> s.g);
".
Definition ltlmopFa : ltl := LAnd (LNot (LAtom "e.r" None)) (LGlobally (LFinally (LAtom "e.r" None))).
Definition ltlmopFg : ltl := LGlobally (LImp (LNext (LAtom "e.r" None)) (LAtom "s.g" None)).
Example C88_example : ltlmopConversion smvExample ltlmopExample = Ret "[INPUT]
r

[OUTPUT]
g

[ENV_TRANS]

[ENV_LIVENESS]
r

[ENV_INIT]
! r

[SYS_TRANS]
| ! r' g

[SYS_LIVENESS]

[SYS_INIT]

".
Proof. vm_compute. reflexivity. Qed.
Lemma no_colon l : beforeColon (strip l) = None -> forall x y, strip l <> x ++ " : " ++ y.
Proof.
  intros H x y E. rewrite E in H. clear E l. induction x as [|a x IH]; cbn [append beforeColon] in H.
  - destruct y; discriminate H.
  - destruct (String.prefix " : " (String a (x ++ " : " ++ y))) eqn:P; cbn [append] in *; rewrite P in H; [discriminate H|]. destruct (beforeColon (x ++ String " " (String ":" (String " " y)))); [discriminate H|]. now apply IH.
Qed.
Ltac other := apply decl_other; [apply no_colon; vm_compute; reflexivity|].
Example C88_example_hyps : exists a g, smvFile (file_lines smvExample) ["r"] ["g"] /\ ltlmopFile (file_lines ltlmopExample) a g /\
  entryText a ltlmopFa /\ entryText g ltlmopFg /\ plainText a /\ plainText g /\ forallb name ["r"; "g"] = true /\ NoDup ["r"; "g"] /\
  translatable ltlmopAtom [ltlmopFa] [ltlmopFg] = true /\ wellScoped ltlmopVar ["r"] ["g"] [ltlmopFa] [ltlmopFg] = true /\
  executeFile (fun _ => true) (match ltlmopConversion smvExample ltlmopExample with Ret s => s | _ => "" end) = POk Realizable.
Proof.
  exists " !e.r & []<>(e.r);", " [](next(e.r) -> s.g);".
  split; [|split; [|split; [|split; [|split; [|split; [|split; [reflexivity|split; [|split; [reflexivity|split; [reflexivity|vm_compute; reflexivity]]]]]]]]]].
  - exists ["MODULE main"], "MODULE env", ["VAR"; "  r : boolean;"], "MODULE sys", ["VAR"; "  g : boolean;"]. repeat (split; [vm_compute; reflexivity|]).
    split; other; (eapply decl_name; [|reflexivity|constructor]); [instantiate (1 := "boolean;")|instantiate (1 := "boolean;")]; vm_compute; reflexivity.
  - exists ["-- a comment"], "LTLSPEC -- Assumptions", ["  !e.r"; "  & []<>(e.r);"], "LTLSPEC -- Guarantees", ["  [](next(e.r) -> s.g);"]. repeat split; vm_compute; reflexivity.
  - apply (entry_ok _ [sym "!"; ("id", "e.r"); sym "&"; sym "["; sym "]"; sym "<"; sym ">"; sym "("; ("id", "e.r"); sym ")"]); [vm_compute; reflexivity|]. apply (ups 3); try lia.
    apply (f_binary 2 (syms ["&"]) LAnd [sym "!"; ("id", "e.r")] [sym "["; sym "]"; sym "<"; sym ">"; sym "("; ("id", "e.r"); sym ")"]).
    + apply i_and. cbn. auto.
    + apply (ups 1); try lia. apply (f_unary (syms ["!"])); [apply p_not; cbn; auto|]. apply (ups 0); try lia. constructor.
    + apply (ups 1); try lia. apply (f_unary (syms ["["; "]"])); [apply p_globally; cbn; auto|]. apply (f_unary (syms ["<"; ">"])); [apply p_finally; cbn; auto|]. apply (ups 0); try lia.
      apply (f_round [("id", "e.r")]). apply (ups 0); try lia. constructor.
  - apply (entry_ok _ [sym "["; sym "]"; sym "("; sym "next"; sym "("; ("id", "e.r"); sym ")"; sym "-"; sym ">"; ("id", "s.g"); sym ")"]); [vm_compute; reflexivity|]. apply (ups 1); try lia.
    apply (f_unary (syms ["["; "]"])); [apply p_globally; cbn; auto|]. apply (ups 0); try lia. apply (f_round [sym "next"; sym "("; ("id", "e.r"); sym ")"; sym "-"; sym ">"; ("id", "s.g")]).
    apply (ups 6); try lia. apply (f_binary 5 (syms ["-"; ">"]) LImp [sym "next"; sym "("; ("id", "e.r"); sym ")"] [("id", "s.g")]).
    + apply i_imp. cbn. auto.
    + apply (ups 1); try lia. apply (f_unary (syms ["next"])); [apply p_next; cbn; auto|]. apply (ups 0); try lia. apply (f_round [("id", "e.r")]). apply (ups 0); try lia. constructor.
    + apply (ups 0); try lia. constructor.
  - apply plainB_ok. vm_compute. reflexivity.
  - apply plainB_ok. vm_compute. reflexivity.
  - repeat constructor; cbn; intuition discriminate.
Qed.

(** *** Comparisons *)

(** The grammar has x=0 and x=1, but the script for LTLMop only writes the name of the variable: x=0 is
    translated to x. *)
Definition smvExample2 : string := "MODULE env
MODULE sys
x : boolean;
".
Definition ltlmopExample2 : string := "LTLSPEC -- Assumptions
TRUE;
LTLSPEC -- Guarantees
s.x=0 & [](s.x=1);
".
Definition ltlmopFg2 : ltl := LAnd (LAtom "s.x" (Some false)) (LGlobally (LAtom "s.x" (Some true))).
Theorem C88_comparisons_refuted : exists smv text ins outs a g assumption guarantee out ord,
  smvFile (file_lines smv) ins outs /\ ltlmopFile (file_lines text) a g /\ entryText a assumption /\ entryText g guarantee /\ plainText a /\ plainText g /\
  forallb name (ins ++ outs) = true /\ NoDup (ins ++ outs) /\ translatable dotted [assumption] [guarantee] = true /\ wellScoped ltlmopVar ins outs [assumption] [guarantee] = true /\
  ltlmopConversion smv text = Ret out /\ executeFile ord out = POk Realizable /\ ~ realizable (ltlGame ltlmopVar ins outs [assumption] [guarantee]).
Proof.
  exists smvExample2, ltlmopExample2, [], ["x"], " TRUE;", " s.x=0 & [](s.x=1);", LTrue, ltlmopFg2. eexists. exists (fun _ => true).
  split; [|split; [|split; [|split; [|split; [|split; [|split; [reflexivity|split; [repeat constructor; cbn; tauto|split; [reflexivity|split; [reflexivity|split; [vm_compute; reflexivity|split; [vm_compute; reflexivity|]]]]]]]]]]]].
  - exists [], "MODULE env", [], "MODULE sys", ["x : boolean;"]. repeat (split; [vm_compute; reflexivity|]).
    split; [constructor|]. eapply decl_name; [|reflexivity|constructor]. instantiate (1 := "boolean;"). vm_compute. reflexivity.
  - exists [], "LTLSPEC -- Assumptions", ["TRUE;"], "LTLSPEC -- Guarantees", ["s.x=0 & [](s.x=1);"]. repeat split; vm_compute; reflexivity.
  - apply (entry_ok _ [sym "TRUE"]); [vm_compute; reflexivity|]. apply (ups 0); try lia. constructor.
  - apply (entry_ok _ [("id", "s.x"); sym "="; sym "0"; sym "&"; sym "["; sym "]"; sym "("; ("id", "s.x"); sym "="; sym "1"; sym ")"]); [vm_compute; reflexivity|]. apply (ups 3); try lia.
    apply (f_binary 2 (syms ["&"]) LAnd [("id", "s.x"); sym "="; sym "0"] [sym "["; sym "]"; sym "("; ("id", "s.x"); sym "="; sym "1"; sym ")"]).
    + apply i_and. cbn. auto.
    + apply (ups 0); try lia. constructor.
    + apply (ups 1); try lia. apply (f_unary (syms ["["; "]"])); [apply p_globally; cbn; auto|]. apply (ups 0); try lia. apply (f_round [("id", "s.x"); sym "="; sym "1"]). apply (ups 0); try lia. constructor.
  - apply plainB_ok. vm_compute. reflexivity.
  - apply plainB_ok. vm_compute. reflexivity.
  - intros (f & H). specialize (H (fun _ _ => false)). set (G := ltlGame _ _ _ _ _) in H. revert H. generalize (play G f (fun _ _ => false)). intros pi H.
    destruct (H eq_refl) as (I & S & _). specialize (S 0 (fun _ _ => eq_refl)). unfold G in I, S. cbn in I, S. unfold at_ in I, S. cbn in I, S. destruct (pi 0 0); discriminate.
Qed.
Print Assumptions C88_comparisons_refuted.
