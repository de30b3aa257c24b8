(** * Specification: LTL formulas, how they are written, and the games they describe

    Independent of the model of the translators for RATSY and LTLMop.  The notation of formulas follows
    the production rules in the comment of /repo/tools/parser.py (lines 72-132) and the words in tokenize
    of the translators. *)

From Coq Require Import String Ascii List Bool Arith.
From Verif Require Import FormulaSpec Spec FileSpec.
Import ListNotations.
Local Open Scope string_scope.

(** ** Formulas and their meaning *)

Inductive ltl : Type :=
| LTrue
| LFalse
| LAtom (x : string) (v : option bool) (* x, x=0 and x=1 *)
| LNot (f : ltl)
| LNext (f : ltl)
| LFinally (f : ltl)
| LGlobally (f : ltl)
| LUntil (weak : bool) (f g : ltl)
| LAnd (f g : ltl)
| LOr (f g : ltl)
| LXor (f g : ltl)
| LImp (f g : ltl)
| LBiimp (f g : ltl).

(** The value of an atom, for the value of its variable. *)
Definition atomValue (v : option bool) (b : bool) : bool := match v with Some false => negb b | _ => b end.

(** Words over valuations of the variables. *)
Definition word : Type := nat -> string -> bool.
Fixpoint sat (w : word) (i : nat) (f : ltl) : Prop :=
  match f with
  | LTrue => True
  | LFalse => False
  | LAtom x v => atomValue v (w i x) = true
  | LNot f => ~ sat w i f
  | LNext f => sat w (S i) f
  | LFinally f => exists j, i <= j /\ sat w j f
  | LGlobally f => forall j, i <= j -> sat w j f
  | LUntil weak f g =>
      (exists j, i <= j /\ sat w j g /\ forall k, i <= k -> k < j -> sat w k f) \/
      (weak = true /\ forall j, i <= j -> sat w j f)
  | LAnd f g => sat w i f /\ sat w i g
  | LOr f g => sat w i f \/ sat w i g
  | LXor f g => (sat w i f /\ ~ sat w i g) \/ (~ sat w i f /\ sat w i g)
  | LImp f g => sat w i f -> sat w i g
  | LBiimp f g => sat w i f <-> sat w i g
  end.

(** ** Notation *)

(** A token has a kind, and a text if its kind is id. *)
Definition token : Type := string * string.
Definition sym (k : string) : token := (k, "").
Definition syms (ks : list string) : list token := map sym ks.

Definition isIdChar (a : ascii) : bool :=
  let n := nat_of_ascii a in
  (Nat.leb 97 n && Nat.leb n 122) || (Nat.leb 65 n && Nat.leb n 90) || isDigit a || Ascii.eqb a "_" || Ascii.eqb a ".".
Fixpoint allIdChars (s : string) : bool :=
  match s with EmptyString => true | String a s => isIdChar a && allIdChars s end.
Definition longKeys : list string := ["FALSE"; "TRUE"; "next"].
Definition shortKeys : list string := ["X"; "F"; "G"; "U"; "W"; "0"; "1"].
Definition keys : list string := (longKeys ++ shortKeys)%list.
Definition wordToken (w : string) : token := if existsb (String.eqb w) keys then sym w else ("id", w).

(** The tokens of a text: the longest words and all other characters, without white space. *)
Inductive lexes : string -> list token -> Prop :=
| lex_end : lexes "" []
| lex_space a s ts : isWs a = true -> lexes s ts -> lexes (String a s) ts
| lex_word w s ts : w <> "" -> allIdChars w = true -> match s with "" => True | String a _ => isIdChar a = false end ->
    lexes s ts -> lexes (w ++ s) (wordToken w :: ts)
| lex_symbol a s ts : isWs a = false -> isIdChar a = false -> lexes s ts -> lexes (String a s) (sym (String a "") :: ts).

Inductive prefixed : list token -> (ltl -> ltl) -> Prop :=
| p_not ts : In ts [syms ["!"]; syms ["~"]] -> prefixed ts LNot
| p_next ts : In ts [syms ["("; ")"]; syms ["next"]; syms ["X"]] -> prefixed ts LNext
| p_finally ts : In ts [syms ["<"; ">"]; syms ["F"]] -> prefixed ts LFinally
| p_globally ts : In ts [syms ["["; "]"]; syms ["G"]] -> prefixed ts LGlobally.
Inductive infixed : nat -> list token -> (ltl -> ltl -> ltl) -> Prop :=
| i_until : infixed 2 (syms ["U"]) (LUntil false)
| i_weak : infixed 2 (syms ["W"]) (LUntil true)
| i_and ts : In ts [syms ["*"]; syms ["/"; "\"]; syms ["&"]; syms ["&"; "&"]] -> infixed 3 ts LAnd
| i_or ts : In ts [syms ["+"]; syms ["\"; "/"]; syms ["|"]; syms ["|"; "|"]] -> infixed 4 ts LOr
| i_xor : infixed 5 (syms ["^"]) LXor
| i_imp ts : In ts [syms ["-"; "-"; ">"]; syms ["-"; ">"]] -> infixed 6 ts LImp
| i_biimp ts : In ts [syms ["<"; "-"; "-"; ">"]; syms ["<"; "-"; ">"]] -> infixed 7 ts LBiimp.
(** Levels: 0 - atoms and brackets, 1 - unary operators, 2 - U and W, 3 - conjunctions,
    4 - disjunctions, 5 - exclusive disjunctions, 6 - implications, 7 - equivalences; operators of the
    same level associate to the left. *)
Inductive formula : nat -> list token -> ltl -> Prop :=
| f_true : formula 0 [sym "TRUE"] LTrue
| f_false : formula 0 [sym "FALSE"] LFalse
| f_id x : formula 0 [("id", x)] (LAtom x None)
| f_id0 x : formula 0 [("id", x); sym "="; sym "0"] (LAtom x (Some false))
| f_id1 x : formula 0 [("id", x); sym "="; sym "1"] (LAtom x (Some true))
| f_round ts f : formula 7 ts f -> formula 0 (sym "(" :: ts ++ [sym ")"]) f
| f_square ts f : formula 7 ts f -> formula 0 (sym "[" :: ts ++ [sym "]"]) f
| f_unary os ts o f : prefixed os o -> formula 1 ts f -> formula 1 (os ++ ts) (o f)
| f_up l ts f : l < 7 -> formula l ts f -> formula (S l) ts f
| f_binary l os c ts us f g : infixed (S l) os c -> formula (S l) ts f -> formula l us g ->
    formula (S l) (ts ++ os ++ us) (c f g).

(** The text is the formula. *)
Definition reads (text : string) (f : ltl) : Prop := exists ts, lexes text ts /\ formula 7 ts f.
(** The text is the formula and a semicolon. *)
Definition entryText (text : string) (f : ltl) : Prop := exists ts, lexes text (ts ++ [sym ";"]) /\ formula 7 ts f.
(** No identifier in the text begins with a long keyword. *)
Definition plainText (text : string) : Prop :=
  forall ts x k, lexes text ts -> In ("id", x) ts -> In k longKeys -> String.prefix k x = false.

(** ** The game of a specification *)

(** The conjuncts of a formula, and their kinds: initial conditions, conditions on all steps, and
    conditions that hold infinitely often. *)
Fixpoint conjuncts (f : ltl) : list ltl :=
  match f with LAnd f g => (conjuncts f ++ conjuncts g)%list | _ => [f] end.
Definition initialOf (f : ltl) : list ltl := match f with LGlobally _ => [] | _ => [f] end.
Definition alwaysOf (f : ltl) : list ltl :=
  match f with LGlobally (LFinally _) => [] | LGlobally f => [f] | _ => [] end.
Definition recurringOf (f : ltl) : list ltl := match f with LGlobally (LFinally f) => [f] | _ => [] end.
Definition parts (kind : ltl -> list ltl) (fs : list ltl) : list ltl := flat_map kind (flat_map conjuncts fs).

(** The value of a formula without temporal operators but next in a step. *)
Fixpoint stepValue (st st' : string -> bool) (f : ltl) : bool :=
  match f with
  | LTrue => true
  | LFalse => false
  | LAtom x v => atomValue v (st x)
  | LNot f => negb (stepValue st st' f)
  | LNext f => stepValue st' st' f
  | LAnd f g => stepValue st st' f && stepValue st st' g
  | LOr f g => stepValue st st' f || stepValue st st' g
  | LXor f g => xorb (stepValue st st' f) (stepValue st st' g)
  | LImp f g => implb (stepValue st st' f) (stepValue st st' g)
  | LBiimp f g => eqb (stepValue st st' f) (stepValue st st' g)
  | _ => false
  end.
(** The formula has no temporal operators but next, none within another one, and none at all unless
    [next] is set.  Exclusive disjunctions are not allowed either. [atom] says which atoms are allowed. *)
Fixpoint stepFormula (atom : string -> option bool -> bool) (next : bool) (f : ltl) : bool :=
  match f with
  | LTrue | LFalse => true
  | LAtom x v => atom x v
  | LNot f => stepFormula atom next f
  | LNext f => next && stepFormula atom false f
  | LAnd f g | LOr f g | LImp f g | LBiimp f g => stepFormula atom next f && stepFormula atom next g
  | _ => false
  end.

(** The variables are numbered in the order of their declarations, inputs first. *)
Section GAME.
  (** The variable that an atom stands for. *)
  Variable varOf : string -> string.
  Variables ins outs : list string.
  Fixpoint position (x : string) (names : list string) : nat :=
    match names with [] => 0 | y :: names => if String.eqb y x then 0 else S (position x names) end.
  Definition at_ (st : state) (x : string) : bool := st (position (varOf x) (ins ++ outs)).
  (** The variables of a formula may be used in a section of a slugs file; [next]: their next values
      are meant. *)
  Fixpoint usable (s : section) (next : bool) (f : ltl) : bool :=
    match f with
    | LTrue | LFalse => true
    | LAtom x _ =>
        (existsb (String.eqb (varOf x)) ins && may_use s false next) || (existsb (String.eqb (varOf x)) outs && may_use s true next)
    | LNot f | LFinally f | LGlobally f => usable s next f
    | LNext f => usable s true f
    | LUntil _ f g | LAnd f g | LOr f g | LXor f g | LImp f g | LBiimp f g => usable s next f && usable s next g
    end.
  Variables assumptions guarantees : list ltl.
  (** Assumptions only speak about what the environment decides, initial conditions only about initial
      values, and all variables are declared. *)
  Definition wellScoped : bool :=
    forallb (usable SEnvInit false) (parts initialOf assumptions) && forallb (usable SSysInit false) (parts initialOf guarantees) &&
    forallb (usable SEnvTrans false) (parts alwaysOf assumptions) && forallb (usable SSysTrans false) (parts alwaysOf guarantees) &&
    forallb (usable SEnvLive false) (parts recurringOf assumptions) && forallb (usable SSysLive true) (parts recurringOf guarantees).

  Definition ltlGame : game :=
    let every kind fs st st' := forallb (stepValue (at_ st) (at_ st')) (parts kind fs) in
    mkGame (fun k => nth k (map (fun _ => false) ins ++ map (fun _ => true) outs)%list false)
      (fun st => every initialOf assumptions st st) (fun st => every initialOf guarantees st st)
      (every alwaysOf assumptions) (every alwaysOf guarantees)
      (map (fun f st st' => stepValue (at_ st) (at_ st') f) (parts recurringOf assumptions))
      (* a guarantee speaks of the step after which it holds *)
      (map (fun f st st' => stepValue (at_ st') (at_ st') f) (parts recurringOf guarantees)).
End GAME.

(** ** Which specifications can be translated *)

(** The conjuncts are formulas about single steps; a guarantee that is to hold infinitely often must
    not contain next. *)
Definition translatable (atom : string -> option bool -> bool) (assumptions guarantees : list ltl) : bool :=
  forallb (stepFormula atom true) (parts initialOf assumptions) && forallb (stepFormula atom true) (parts alwaysOf assumptions) &&
  forallb (stepFormula atom true) (parts recurringOf assumptions) &&
  forallb (stepFormula atom true) (parts initialOf guarantees) && forallb (stepFormula atom true) (parts alwaysOf guarantees) &&
  forallb (stepFormula atom false) (parts recurringOf guarantees).

(** Names of variables. *)
Definition name (x : string) : bool := negb (String.eqb x "") && allIdChars x && negb (reserved x).

(** ** Files of RATSY *)

Definition firstChar (s : string) : option ascii := match s with "" => None | String a _ => Some a end.
Definition skipped (line : string) : bool :=
  match firstChar (strip line) with None => true | Some a => Ascii.eqb a "#" end.
Definition bodyLine (line : string) : bool :=
  match firstChar (strip line) with None => true | Some a => negb (Ascii.eqb a "[") end.
(** A section: the line with its header, and the other lines. *)
Definition block : Type := string * list string.
Definition ratsySections : list string :=
  ["[INPUT_VARIABLES]"; "[OUTPUT_VARIABLES]"; "[ENV_INITIAL]"; "[SYS_INITIAL]"; "[ENV_TRANSITIONS]"; "[SYS_TRANSITIONS]"; "[ENV_FAIRNESS]"; "[SYS_FAIRNESS]"].
Definition ratsyFile (lines : list string) (bs : list block) : Prop :=
  exists pre, lines = (pre ++ flat_map (fun b => fst b :: snd b) bs)%list /\ forallb skipped pre = true /\
    Forall (fun b => In (strip (fst b)) ratsySections /\ forallb bodyLine (snd b) = true) bs.
(** The text of a section: its lines, one after the other. *)
Definition sectionText (h : string) (bs : list block) : string :=
  String.concat "" (flat_map (fun b => if String.eqb (strip (fst b)) h then map strip (filter (fun l => negb (skipped l)) (snd b)) else []) bs).
(** The parts of a text between semicolons, without empty ones. *)
Definition entriesOf (text : string) (es : list string) : Prop :=
  exists ps, ps <> [] /\ text = String.concat ";" ps /\ Forall (fun p => ~ In ";"%char (list_ascii_of_string p)) ps /\
    es = filter (fun e => negb (String.eqb e "")) (map strip ps).
(** The variables, assumptions and guarantees in a file. *)
Definition ratsyParts (text : string) (ins outs assumptions guarantees : list string) : Prop :=
  exists bs a1 a2 a3 g1 g2 g3, ratsyFile (file_lines text) bs /\
    entriesOf (sectionText "[INPUT_VARIABLES]" bs) ins /\ entriesOf (sectionText "[OUTPUT_VARIABLES]" bs) outs /\
    entriesOf (sectionText "[ENV_INITIAL]" bs) a1 /\ entriesOf (sectionText "[ENV_TRANSITIONS]" bs) a2 /\
    entriesOf (sectionText "[ENV_FAIRNESS]" bs) a3 /\
    entriesOf (sectionText "[SYS_INITIAL]" bs) g1 /\ entriesOf (sectionText "[SYS_TRANSITIONS]" bs) g2 /\
    entriesOf (sectionText "[SYS_FAIRNESS]" bs) g3 /\
    assumptions = (a1 ++ a2 ++ a3)%list /\ guarantees = (g1 ++ g2 ++ g3)%list.
(** In formulas of RATSY, all atoms are comparisons with 0 or 1. *)
Definition ratsyAtom (x : string) (v : option bool) : bool := match v with Some _ => true | None => false end.

(** ** Files of LTLMop *)

(** In formulas of LTLMop, the second character of an atom is a dot, and the name of the variable follows;
    there are no comparisons. *)
Definition dotted (x : string) (v : option bool) : bool := match x with String _ (String a _) => Ascii.eqb a "." | _ => false end.
Definition ltlmopAtom (x : string) (v : option bool) : bool := match v with None => dotted x v | Some _ => false end.
Definition ltlmopVar (x : string) : string := match x with String _ (String _ y) => y | _ => "" end.
Definition beginsWith (prefix : string) (line : string) : bool := String.prefix prefix (strip line).
(** The formulas: the lines after the two headers; each of them ends with a semicolon. *)
Definition ltlmopFile (lines : list string) (assumptions guarantees : string) : Prop :=
  let isHeader l := String.eqb (strip l) "LTLSPEC -- Assumptions" || String.eqb (strip l) "LTLSPEC -- Guarantees" in
  let text ls := String.concat "" (map (fun l => " " ++ strip l) ls) in
  exists pre h ls h' ls', lines = (pre ++ h :: ls ++ h' :: ls')%list /\
    existsb isHeader (pre ++ ls ++ ls') = false /\ strip h = "LTLSPEC -- Assumptions" /\ strip h' = "LTLSPEC -- Guarantees" /\
    assumptions = text ls /\ guarantees = text ls'.
(** The variables: the declarations in the modules for the environment and for the system. *)
Inductive declarations : list string -> list string -> Prop :=
| decl_nil : declarations [] []
| decl_other l ls xs : (forall x y, strip l <> x ++ " : " ++ y) -> declarations ls xs -> declarations (l :: ls) xs
| decl_name l ls x y xs : strip l = x ++ " : " ++ y -> name x = true -> declarations ls xs -> declarations (l :: ls) (x :: xs).
Definition smvFile (lines : list string) (ins outs : list string) : Prop :=
  let isModule l := beginsWith "MODULE env" l || beginsWith "MODULE sys" l in
  exists pre h ls h' ls', lines = (pre ++ h :: ls ++ h' :: ls')%list /\
    existsb isModule (pre ++ ls ++ ls') = false /\ beginsWith "MODULE env" h = true /\ beginsWith "MODULE sys" h' = true /\
    declarations ls ins /\ declarations ls' outs.
