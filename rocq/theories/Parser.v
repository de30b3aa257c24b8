(** * Parsing of formulas and of specification files

    Model of /repo/src/synthesisContextBasics.cpp. *)

From Coq Require Import String Ascii List Bool Arith NArith.
From Verif Require Import BDD VarTypes.
Import ListNotations.
Open Scope string_scope.

(** isspace in the "C" locale, used by operator>> and by boost::trim. *)
Definition isspace (a : ascii) : bool :=
  match nat_of_ascii a with
  | 9 | 10 | 11 | 12 | 13 | 32 => true
  | _ => false
  end.

(** [is >> std::string]: skips white space and reads up to the next white space
    or the end.  The empty token stands for an extraction that fails. *)
Fixpoint skipWs (s : string) : string :=
  match s with
  | EmptyString => EmptyString
  | String a s' => if isspace a then skipWs s' else s
  end.
Fixpoint takeWord (s : string) : string * string :=
  match s with
  | EmptyString => (EmptyString, EmptyString)
  | String a s' =>
      if isspace a then (EmptyString, s)
      else let (w, r) := takeWord s' in (String a w, r)
  end.
Definition readToken (s : string) : string * string := takeWord (skipWs s).

(** [is >> unsigned int] of libstdc++ (base 10): skips white space, accepts an
    optional sign, then reads digits; fails if there are none or if the absolute
    value does not fit 32 bits; a negative sign negates modulo 2^32. *)
Definition digit (a : ascii) : option N :=
  let n := nat_of_ascii a in
  if (48 <=? n)%nat && (n <=? 57)%nat then Some (N.of_nat (n - 48)) else None.
Fixpoint takeDigits (acc : N) (seen : bool) (s : string) : N * bool * string :=
  match s with
  | EmptyString => (acc, seen, s)
  | String a s' =>
      match digit a with
      | Some d => takeDigits (10 * acc + d) true s'
      | None => (acc, seen, s)
      end
  end.
Definition uintBound : N := 4294967296.
Definition readUnsigned (s : string) : option (N * string) :=
  let s := skipWs s in
  let '(neg, s) :=
    match s with
    | String a s' => if (a =? "-")%char then (true, s') else if (a =? "+")%char then (false, s') else (false, s)
    | EmptyString => (false, s)
    end in
  let '(n, seen, rest) := takeDigits 0 false s in
  if negb seen then None
  else if (uintBound <=? n)%N then None
  else Some (if neg then ((uintBound - n) mod uintBound)%N else n, rest).

(** Reasons for an error; all of them end the program without a verdict. *)
Inductive perror : Set :=
| PrematureEnd
| ExpectedBufferSize
| ExpectedRecallNumber
| RecallNotStored
| NotAllowed
| NotFound
| StrayCharacters
| UnknownCategory
| NoCategory
| DuplicateName
| LimitOnLiveness.

(** Outcome of a part of the program: a value, an error, undefined behaviour, or
    exhaustion of the fuel of the model. *)
Inductive pres (A : Type) : Type :=
| POk (a : A)
| PErr (e : perror)
| PUB
| PFuel.
Arguments POk {A}. Arguments PErr {A}. Arguments PUB {A}. Arguments PFuel {A}.

Definition pbind {A B} (x : pres A) (f : A -> pres B) : pres B :=
  match x with POk a => f a | PErr e => PErr e | PUB => PUB | PFuel => PFuel end.

(** A memory buffer (std::vector<BF> memory): its size and the values of the
    elements assigned so far.  The other elements hold a default-constructed BF,
    which is [None] (no node, BFCudd.h:29-31).  Copying it is fine; every operator
    applied to it is undefined behaviour (BFCudd.h:130-150). *)
Record memory : Type := mkMem { msize : N; mvals : list (option BF) }.

Fixpoint nthN {A} (l : list A) (k : N) : option A :=
  match l with
  | [] => None
  | a :: l => if (k =? 0)%N then Some a else nthN l (N.pred k)
  end.

Definition recall (m : memory) (k : N) : option BF :=
  match nthN (mvals m) k with Some v => v | None => None end.

Definition op2 (f : BF -> BF -> BF) (x y : option BF) : pres (option BF) :=
  match x, y with Some a, Some b => POk (Some (f a b)) | _, _ => PUB end.
Definition op1 (f : BF -> BF) (x : option BF) : pres (option BF) :=
  match x with Some a => POk (Some (f a)) | None => PUB end.

(** First variable with a given name, synthesisContextBasics.cpp:71-72. *)
Fixpoint findVar (names : list string) (i : nat) (w : string) : option nat :=
  match names with
  | [] => None
  | n :: names => if String.eqb n w then Some i else findVar names (S i) w
  end.

Section RECURSE.
  Variable names : list string.
  Variable types : list VariableType.
  Variable allowed : list VariableType.
  (** C++11 leaves open which operand of |, ^ and & (lines 30-32) is evaluated
      first; [ord] tells if it is the left one, for each occurrence of an
      operator, identified by the number of characters that follow it. *)
  Variable ord : nat -> bool.

  (** parseBooleanFormulaRecurse, synthesisContextBasics.cpp:22-84: the value and
      the remaining characters. *)
  Fixpoint parseRec (fuel : nat) (mem : memory) (s : string) : pres (option BF * string) :=
    match fuel with
    | O => PFuel
    | S fuel =>
        let '(op, s1) := readToken s in
        let binary (f : BF -> BF -> BF) :=
          pbind (parseRec fuel mem s1) (fun '(v1, s2) =>
          pbind (parseRec fuel mem s2) (fun '(v2, s3) =>
          pbind (if ord (String.length s1) then op2 f v1 v2 else op2 f v2 v1)
                (fun v => POk (v, s3)))) in
        if String.eqb op "" then PErr PrematureEnd
        else if String.eqb op "|" then binary bor
        else if String.eqb op "^" then binary bxor
        else if String.eqb op "&" then binary band
        else if String.eqb op "!" then
          pbind (parseRec fuel mem s1) (fun '(v, s2) => pbind (op1 bnot v) (fun v => POk (v, s2)))
        else if String.eqb op "1" then POk (Some btrue, s1)
        else if String.eqb op "0" then POk (Some bfalse, s1)
        else if String.eqb op "$" then
          match readUnsigned s1 with
          | None => PErr ExpectedBufferSize
          | Some (n, s2) =>
              (fix elems (k : nat) (left : N) (vals : list (option BF)) (s : string) :=
                 if (left =? 0)%N then
                   (* memoryNew[nofElements-1] *)
                   if (n =? 0)%N then PUB else POk (recall (mkMem n vals) (n - 1), s)
                 else match k with
                      | O => PFuel
                      | S k => pbind (parseRec fuel (mkMem n vals) s)
                                 (fun '(v, s') => elems k (N.pred left) (vals ++ [v])%list s')
                      end) (S (String.length s2)) n [] s2
          end
        else if String.eqb op "?" then
          match readUnsigned s1 with
          | None => PErr ExpectedRecallNumber
          | Some (k, s2) =>
              if (msize mem <=? k)%N then PErr RecallNotStored else POk (recall mem k, s2)
          end
        else match findVar names 0 op with
             | None => PErr NotFound
             | Some i =>
                 if existsb (vt_eqb (nth i types NoneVariableType)) allowed then POk (Some (bvar i), s1)
                 else PErr NotAllowed
             end
    end.

  (** parseBooleanFormula, synthesisContextBasics.cpp:92-106. *)
  Definition parseFormula (line : string) : pres (option BF) :=
    pbind (parseRec (S (String.length line)) (mkMem 0 []) line) (fun '(v, rest) =>
      if String.eqb (fst (readToken rest)) "" then POk v else PErr StrayCharacters).
End RECURSE.

(** boost::trim. *)
Fixpoint trimRight (s : string) : string :=
  match s with
  | EmptyString => EmptyString
  | String a s' =>
      let r := trimRight s' in
      if isspace a && String.eqb r "" then EmptyString else String a r
  end.
Definition trim (s : string) : string := trimRight (skipWs s).

(** std::getline until it fails: the lines of a file. *)
Fixpoint getlines (s : string) : list string :=
  match s with
  | EmptyString => []
  | String a s' =>
      if (nat_of_ascii a =? 10)%nat then "" :: getlines s'
      else match s' with
           | EmptyString => [String a ""]
           | _ => match getlines s' with
                  | l :: ls => String a l :: ls
                  | [] => [String a ""]
                  end
           end
  end.

(** The values of readMode, synthesisContextBasics.cpp:141 and 149-164. *)
Inductive mode : Set := MNone | MInput | MOutput | MEnvInit | MSysInit | MEnvTrans | MSysTrans | MEnvLive | MSysLive.

Definition category (line : string) : option mode :=
  if String.eqb line "[INPUT]" then Some MInput
  else if String.eqb line "[OUTPUT]" then Some MOutput
  else if String.eqb line "[ENV_INIT]" then Some MEnvInit
  else if String.eqb line "[SYS_INIT]" then Some MSysInit
  else if String.eqb line "[ENV_TRANS]" then Some MEnvTrans
  else if String.eqb line "[SYS_TRANS]" then Some MSysTrans
  else if String.eqb line "[ENV_LIVENESS]" then Some MEnvLive
  else if String.eqb line "[SYS_LIVENESS]" then Some MSysLive
  else None.

(** addVariable, /repo/src/variableManager.cpp:117-123, twice. *)
Definition addVars (c : ctx) (tpre tpost : VariableType) (line : string) : ctx :=
  mkCtx (varNames c ++ [line; (line ++ "'")%string])%list (varTypes c ++ [tpre; tpost])%list
    (livenessAssumptions c) (livenessGuarantees c) (initEnv c) (initSys c) (safetyEnv c) (safetySys c).

Section INIT.
  Variable ord : nat -> bool.

  Definition formula (c : ctx) (allowed : list VariableType) (line : string) : pres BF :=
    pbind (parseFormula (varNames c) (varTypes c) allowed ord line)
      (fun v => match v with Some b => POk b | None => PUB end).
  (* Simplification: a line whose value is a default-constructed BF counts as
     undefined behaviour at once.  In lines 179, 184, 190 and 197 the operator &=
     uses it immediately; in lines 204 and 211 it is stored and first used by the
     synthesis algorithm. *)

  (** Treatment of one line, synthesisContextBasics.cpp:146-217. *)
  Definition processLine (st : mode * ctx) (line0 : string) : pres (mode * ctx) :=
    let '(m, c) := st in
    let line := trim line0 in
    match line with
    | EmptyString => POk st
    | String a _ =>
        if (a =? "#")%char then POk st
        else if (a =? "[")%char then
          match category line with Some m' => POk (m', c) | None => PErr UnknownCategory end
        else match m with
        | MInput => POk (m, addVars c PreInput PostInput line)
        | MOutput => POk (m, addVars c PreOutput PostOutput line)
        | MEnvInit => pbind (formula c [PreInput] line) (fun b =>
            POk (m, mkCtx (varNames c) (varTypes c) (livenessAssumptions c) (livenessGuarantees c)
                      (band (initEnv c) b) (initSys c) (safetyEnv c) (safetySys c)))
        | MSysInit => pbind (formula c [PreInput; PreOutput] line) (fun b =>
            POk (m, mkCtx (varNames c) (varTypes c) (livenessAssumptions c) (livenessGuarantees c)
                      (initEnv c) (band (initSys c) b) (safetyEnv c) (safetySys c)))
        | MEnvTrans => pbind (formula c [PreInput; PreOutput; PostInput] line) (fun b =>
            POk (m, mkCtx (varNames c) (varTypes c) (livenessAssumptions c) (livenessGuarantees c)
                      (initEnv c) (initSys c) (band (safetyEnv c) b) (safetySys c)))
        | MSysTrans => pbind (formula c [PreInput; PreOutput; PostInput; PostOutput] line) (fun b =>
            POk (m, mkCtx (varNames c) (varTypes c) (livenessAssumptions c) (livenessGuarantees c)
                      (initEnv c) (initSys c) (safetyEnv c) (band (safetySys c) b)))
        | MEnvLive => pbind (formula c [PreInput; PreOutput; PostOutput; PostInput] line) (fun b =>
            POk (m, mkCtx (varNames c) (varTypes c) (livenessAssumptions c ++ [b])%list (livenessGuarantees c)
                      (initEnv c) (initSys c) (safetyEnv c) (safetySys c)))
        | MSysLive => pbind (formula c [PreInput; PreOutput; PostInput; PostOutput] line) (fun b =>
            POk (m, mkCtx (varNames c) (varTypes c) (livenessAssumptions c) (livenessGuarantees c ++ [b])%list
                      (initEnv c) (initSys c) (safetyEnv c) (safetySys c)))
        | MNone => PErr NoCategory
        end
    end.

  Fixpoint processLines (st : mode * ctx) (lines : list string) : pres (mode * ctx) :=
    match lines with
    | [] => POk st
    | l :: ls => pbind (processLine st l) (fun st => processLines st ls)
    end.

  (** Size of the set of the names, line 221. *)
  Fixpoint setSize (l : list string) : nat :=
    match l with
    | [] => 0
    | a :: l => if existsb (String.eqb a) l then setSize l else S (setSize l)
    end.

  (** The state before the first line, lines 135-143. *)
  Definition emptyCtx : ctx := mkCtx [] [] [] [] btrue btrue btrue btrue.

  (** Lines 220-227. *)
  Definition finish (c : ctx) : pres ctx :=
    if (setSize (varNames c) =? length (varNames c))%nat then
      POk (mkCtx (varNames c) (varTypes c)
             (match livenessAssumptions c with [] => [btrue] | l => l end)
             (match livenessGuarantees c with [] => [btrue] | l => l end)
             (initEnv c) (initSys c) (safetyEnv c) (safetySys c))
    else PErr DuplicateName.

  (** GR1Context::init on a file with the given content,
      synthesisContextBasics.cpp:118-228. *)
  Definition initContext (content : string) : pres ctx :=
    pbind (processLines (MNone, emptyCtx) (getlines content)) (fun '(_, c) => finish c).
End INIT.
