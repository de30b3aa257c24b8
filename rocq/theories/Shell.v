(** * The interactive shell (option --interactiveStrategy)

    Model of XInteractiveStrategy::execute, /repo/src/extensionInteractiveStrategy.hpp:52-1069, on
    top of GR1Context, XFixedPointRecycling and XBiasForAction.

    Not modelled: the files written to /tmp, the output on std::cerr, and the wording of the
    output on std::cout, for which there is a type of replies.  Assertions are switched off by
    -DNDEBUG. *)

From Coq Require Import String Ascii NArith ZArith Arith List Bool.
From Verif Require Import BDD Loop VarTypes Synth Solvers Explicit Counter Parser.
Import ListNotations.
Local Open Scope list_scope.

(** ** std::cin *)

(** The characters that have not been read so far, failbit and eofbit. *)
Record stream : Type := mkStream { chars : string; failed : bool; ended : bool }.
Definition good (i : stream) : bool := negb (failed i) && negb (ended i).
Definition setFailed (i : stream) : stream := mkStream (chars i) true (ended i).

(** std::getline; [None] if the string is not changed. *)
Fixpoint takeLine (s : string) : string * option string :=
  match s with
  | EmptyString => (EmptyString, None)
  | String a s => if (a =? "010")%char then (EmptyString, Some s) else let (l, r) := takeLine s in (String a l, r)
  end.
Definition getline (i : stream) : option string * stream :=
  if negb (good i) then (None, setFailed i)
  else match chars i with
       | EmptyString => (Some EmptyString, mkStream EmptyString true true)
       | _ => match takeLine (chars i) with
              | (l, Some r) => (Some l, mkStream r false false)
              | (l, None) => (Some l, mkStream EmptyString false true)
              end
       end.

(** operator>> for char; [None] if the variable is not changed. *)
Definition readChar (i : stream) : option ascii * stream :=
  if negb (good i) then (None, setFailed i)
  else match skipWs (chars i) with
       | EmptyString => (None, mkStream EmptyString true true)
       | String a r => (Some a, mkStream r false false)
       end.

(** operator>> for int: an optional sign and digits; [None] if it fails.  What is left in the
    stream after a failure is never read, since the program does not reset failbit. *)
Definition readInt (i : stream) : option Z * stream :=
  if negb (good i) then (None, setFailed i)
  else match skipWs (chars i) with
       | EmptyString => (None, mkStream EmptyString true true)
       | s =>
           let '(neg, s') :=
             match s with
             | String a r => if (a =? "-")%char then (true, r) else if (a =? "+")%char then (false, r) else (false, s)
             | EmptyString => (false, s)
             end in
           let '(n, seen, rest) := takeDigits 0 false s' in
           let atEnd := match rest with EmptyString => true | _ => false end in
           let z := if neg then (- Z.of_N n)%Z else Z.of_N n in
           if seen && (-2147483648 <=? z)%Z && (z <=? 2147483647)%Z then (Some z, mkStream rest false atEnd)
           else (None, mkStream rest true atEnd)
       end.

(** operator>> for unsigned int; the variable gets 0 if there are no digits, and the largest
    number if the number is too large; [None] if it is not changed. *)
Definition readUInt (i : stream) : option N * stream :=
  if negb (good i) then (None, setFailed i)
  else match skipWs (chars i) with
       | EmptyString => (None, mkStream EmptyString true true)
       | s =>
           let '(neg, s') :=
             match s with
             | String a r => if (a =? "-")%char then (true, r) else if (a =? "+")%char then (false, r) else (false, s)
             | EmptyString => (false, s)
             end in
           let '(n, seen, rest) := takeDigits 0 false s' in
           let atEnd := match rest with EmptyString => true | _ => false end in
           if negb seen then (Some 0%N, mkStream rest true atEnd)
           else if (uintBound <=? n)%N then (Some (uintBound - 1)%N, mkStream rest true atEnd)
           else (Some (if neg then ((uintBound - n) mod uintBound)%N else n), mkStream rest false atEnd)
       end.

(** boost::to_upper. *)
Definition upperChar (a : ascii) : ascii :=
  let n := nat_of_ascii a in if (97 <=? n)%nat && (n <=? 122)%nat then ascii_of_nat (n - 32) else a.
Fixpoint toUpper (s : string) : string :=
  match s with EmptyString => EmptyString | String a s => String (upperChar a) (toUpper s) end.

(** ** What is computed at the beginning, lines 53-134 *)

(** One entry of strategyDumpingData in the unrealizable case, lines 121-128; the accumulator
    is (casesCovered, strategy). *)
Definition positionalStepE (c : ctx) (i : nat) (acc : BF * BF) (entry : nat * BF) : BF * BF :=
  let '(covered, strategy) := acc in
  if Nat.eqb (fst entry) i then
    let actions := bforall (varCubePostOutput c) (snd entry) in
    let newCases := band (bexists (varCubePost c) actions) (bnot covered) in
    (bor covered newCases, bor strategy (band newCases actions))
  else acc.
Definition positionalE (c : ctx) (data : list (nat * BF)) (i : nat) : BF :=
  snd (fold_left (positionalStepE c i) data (bfalse, bfalse)).

(** realizable, winningPositions and positionalStrategiesForTheIndividualGoals. *)
Record table : Type := mkTable { t_realizable : bool; t_winning : BF; t_strategies : list BF }.
(** Lines 53-134.  The fixed points of lines 84-115 are those of XCounterStrategy::computeWinningPositions
    ([computeCounter]), whose data carry the number of the guarantee in addition. *)
Definition startShell (alg : algorithm) (c : ctx) : option table :=
  match solve alg c with
  | None => None
  | Some (w, data) =>
      match verdictOf (initialCheck c w) with
      | Realizable =>
          Some (mkTable true w (map (positional c data) (seq 0 (length (livenessGuarantees c)))))
      | Unrealizable =>
          match computeCounter c with
          | None => None
          | Some (w, data) =>
              let data := map (fun e => (fst (fst e), snd e)) data in
              Some (mkTable false w (map (positionalE c data) (seq 0 (length (livenessAssumptions c)))))
          end
      | _ => None
      end
  end.

(** ** Commands *)

(** What is printed, apart from the wording. *)
Inductive reply : Type :=
| RStart (values : list bool)                                     (* lines 162-171 *)
| RCheck (winning assumptions guarantees : bool) (satA satG possible : list nat)  (* lines 222-271 *)
| RSet                                                            (* lines 275-297 *)
| RNoPosition                                                     (* line 301 *)
| RReadError                                                      (* line 309 *)
| RTooLarge                                                       (* line 311 *)
| RNoInput                                                        (* line 316 *)
| RIllegal (warning internal : bool)                              (* lines 348, 356-358 *)
| RMove (warning : bool) (outputs : list bool) (satA satG possible : list nat)  (* lines 348, 364-410 *)
| RError                                                          (* lines 442, 503 *)
| RPosition (values : list bool) (goal : nat)                     (* lines 464-482, 524-542, 567-585 *)
| RNames (names : list string)                                    (* lines 547-551, 554-558 *)
| RCounts (assumptions guarantees : nat)                          (* lines 561-562 *)
| RFailAssumptions                                                (* lines 639, 865 *)
| RFailGuarantees (marks : list ascii) (next : option (nat * nat)) (* lines 653-681, 717-745, 898-927, 966-995 *)
| RForced                                                         (* lines 685, 715, 929, 964 *)
| RMarks (marks : list ascii) (next : option (nat * nat))         (* lines 798-801, 1049-1058 *)
| RUnknown (command : string).                                    (* line 1065 *)

(** currentPosition, currentLivenessGuarantee (lines 137-138), and the number of calls of
    rand() so far. *)
Record shell : Type := mkShell { sh_pos : BF; sh_goal : nat; sh_rand : nat }.

(** After a command: the next state; the end of the program by return or by an exception;
    undefined behaviour because of an access to an element that a vector does not have, or
    because of the value of a variable that has not been initialised; a loop that does not end. *)
Inductive outcome (A : Type) : Type := Next (a : A) | Returned | Thrown | OutOfBounds | Uninitialised | Loops.
Arguments Next {A}. Arguments Returned {A}. Arguments Thrown {A}. Arguments OutOfBounds {A}.
Arguments Uninitialised {A}. Arguments Loops {A}.
Definition obind {A B} (x : outcome A) (f : A -> outcome B) : outcome B :=
  match x with
  | Next a => f a
  | Returned => Returned
  | Thrown => Thrown
  | OutOfBounds => OutOfBounds
  | Uninitialised => Uninitialised
  | Loops => Loops
  end.

Definition literal (i : nat) (b : bool) : BF := if b then bvar i else bnot (bvar i).
(** The digit printed for variable [i]: lines 165-169, 366-372, 466-470 etc. *)
Definition digitOf (f : BF) (i : nat) : bool := negb (isFalse (band (bvar i) f)).
(** variables[...] of one type, in order. *)
Definition varsT (c : ctx) (ty : VariableType) : list nat := varsOf (varTypes c) [ty].
(** The numbers of the elements of [l] that [f] intersects: lines 238-245, 377-385 etc. *)
Definition meets (l : list BF) (f : BF) : list nat :=
  filter (fun i => negb (isFalse (band (nth i l bfalse) f))) (seq 0 (length l)).

(** The first elements of a vector: undefined if there are fewer than [n]. *)
Definition meetsN (n : nat) (l : list BF) (f : BF) : outcome (list nat) :=
  if Nat.leb n (length l) then Next (meets (firstn n l) f) else OutOfBounds.

(** Reading values for variables, lines 177-196, 200-219, 277-296, 323-344; a value that
    cannot be read counts as 0. *)
Fixpoint readValues (vars : list nat) (i : stream) : list (nat * Z) * stream :=
  match vars with
  | [] => ([], i)
  | v :: vars =>
      let '(z, i) := readInt i in
      let z := if failed i then 0%Z else match z with Some z => z | None => 0%Z end in
      let '(l, i) := readValues vars i in ((v, z) :: l, i)
  end.
Definition cubeOfValues (l : list (nat * Z)) : BF :=
  fold_left (fun f e => band f (literal (fst e) (negb (Z.eqb (snd e) 0)))) l btrue.
(** nextPosition in MOVE (lines 333-342) has no literal for other values. *)
Definition cubeOfDigits (l : list (nat * Z)) : BF :=
  cubeOfValues (filter (fun e => Z.eqb (snd e) 0 || Z.eqb (snd e) 1) l).

(** Reading characters for variables, lines 427-439, 598-614, 811-845; characters other than 0
    and 1 add no literal (those that are not permitted lead to a message on std::cerr). *)
Fixpoint readBits (vars : list nat) (f : BF) (i : stream) : outcome (BF * stream) :=
  match vars with
  | [] => Next (f, i)
  | v :: vars =>
      match readChar i with
      | (None, _) => Uninitialised
      | (Some a, i) =>
          readBits vars (if (a =? "0")%char then band f (literal v false)
                         else if (a =? "1")%char then band f (literal v true) else f) i
      end
  end.

(** STARTPOS, lines 158-172 *)
Definition startPos (c : ctx) (t : table) (s : shell) : reply * shell :=
  let p := determinize (band (band (t_winning t) (initEnv c)) (initSys c)) (preVars c) in
  (RStart (map (digitOf p) (varsT c Pre)), mkShell p (sh_goal s) (sh_rand s)).

(** CHECKTRANS, lines 173-271.  The second loop adds its literals to [from] as well; [to] stays
    true. *)
Definition checkTrans (c : ctx) (t : table) (s : shell) (i : stream) : outcome (reply * shell * stream) :=
  let '(l1, i) := readValues (varsT c Pre) i in
  let '(l2, i) := readValues (varsT c Post) i in
  let from := band (cubeOfValues l1) (cubeOfValues l2) in
  obind (meetsN (length (livenessGuarantees c)) (t_strategies t) from) (fun possible =>
  Next (RCheck (negb (isFalse (band from (t_winning t)))) (negb (isFalse (band from (safetyEnv c))))
          (negb (isFalse (band from (safetySys c))))
          (meets (livenessAssumptions c) from) (meets (livenessGuarantees c) from) possible, s, i)).

(** SETPOS, lines 273-297 *)
Definition setPos (c : ctx) (s : shell) (i : stream) : reply * shell * stream :=
  let '(l, i) := readValues (varsT c Pre) i in (RSet, mkShell (cubeOfValues l) (sh_goal s) (sh_rand s), i).

(** MOVE, lines 298-417 *)
Definition move (c : ctx) (t : table) (s : shell) (i : stream) : outcome (reply * shell * stream) :=
  if bf_eqb (sh_pos s) bfalse then Next (RNoPosition, s, i) else
  let '(n, i) := readUInt i in
  if failed i then Next (RReadError, s, i) else
  match n with
  | None => Uninitialised
  | Some n =>
      if (N.of_nat (length (livenessGuarantees c)) <=? n)%N then Next (RTooLarge, s, i) else
      if isFalse (band (sh_pos s) (safetyEnv c)) then Next (RNoInput, s, i) else
      let '(l, i) := readValues (varsT c PostInput) i in
      let to := cubeOfValues l in
      let warning := isFalse (band (band (sh_pos s) to) (safetyEnv c)) in
      match nth_error (t_strategies t) (N.to_nat n) with
      | None => OutOfBounds
      | Some strategy =>
          let transition := band (band (sh_pos s) to) strategy in
          if isFalse transition then Next (RIllegal warning (negb warning), s, i) else
          let transition := determinize transition (postOutputVars c) in
          let outputs := map (digitOf transition) (varsT c PostOutput) in
          let next := fold_left (fun f e => band f (literal (fst e) (snd e))) (combine (varsT c PostOutput) outputs) (cubeOfDigits l) in
          obind (meetsN (length (livenessGuarantees c)) (t_strategies t) transition) (fun possible =>
          Next (RMove warning outputs (meets (livenessAssumptions c) transition) (meets (livenessGuarantees c) transition) possible,
                mkShell (swapPrePost c next) (sh_goal s) (sh_rand s), i))
      end
  end.

(** determinizeRandomized, /repo/src/tools.cpp:39-58; [rand k] is the value of rand()%2 at the
    k-th call. *)
Fixpoint determinizeRandomized (rand : nat -> bool) (k : nat) (f : BF) (vars : list nat) : BF * nat :=
  match vars with
  | [] => (f, k)
  | v :: vars =>
      let first := literal v (negb (rand k)) in
      let res := band f first in
      determinizeRandomized rand (S k) (if isFalse res then band f (literal v (rand k)) else res) vars
  end.

(** The values printed for the current position: first the inputs (lines 464-481). *)
Definition positionValues (c : ctx) (p : BF) : list bool := map (digitOf p) (varsT c PreInput ++ varsT c PreOutput).

(** XMAKETRANS, lines 423-484, and XMAKETRANSRANDOM, lines 485-544, for the inputs [x]. *)
Definition makeTrans (rand : option (nat -> bool)) (c : ctx) (t : table) (s : shell) (x : BF) : outcome (reply * shell) :=
  let trans := band (band (sh_pos s) x) (safetyEnv c) in
  if isFalse trans then Next (RError, s) else
  match nth_error (t_strategies t) (sh_goal s) with
  | None => OutOfBounds
  | Some strategy =>
      let '(comb, k) :=
        match rand with
        | None => (determinize (band trans strategy) (postVars c), sh_rand s)
        | Some rand => determinizeRandomized rand (sh_rand s) (band trans strategy) (postVars c)
        end in
      match jump (S (length (livenessGuarantees c))) c (sh_goal s) (sh_goal s) true comb with
      | None => Loops
      | Some goal =>
          let p := swapPrePost c (bexists (varCubePre c) comb) in
          Next (RPosition (positionValues c p) goal, mkShell p goal k)
      end
  end.

(** XGETINIT, lines 563-586; the goal number that is printed is 0. *)
Definition getInit (c : ctx) (t : table) (s : shell) : reply * shell :=
  let p := determinize (band (band (t_winning t) (initEnv c)) (initSys c)) (preVars c) in
  (RPosition (positionValues c p) 0, mkShell p (sh_goal s) (sh_rand s)).

(** Entries of the array result: [lower] and [upper] for values that are the only possible
    ones in [f]; only entries '.' change.  Lines 621-635, 691-704, 755-770 and so on. *)
Definition mark (f : BF) (lower upper : ascii) (vars : list nat) (marks : list ascii) : list ascii :=
  map (fun e => if (snd e =? ".")%char then
                  if isFalse (band f (bvar (fst e))) then lower
                  else if isFalse (band f (bnot (bvar (fst e)))) then upper
                  else "."%char
                else snd e) (combine vars marks).
(** Lines 695-699 test the other way round. *)
Definition markR (f : BF) (lower upper : ascii) (vars : list nat) (marks : list ascii) : list ascii :=
  map (fun e => if (snd e =? ".")%char then
                  if isFalse (band f (bnot (bvar (fst e)))) then upper
                  else if isFalse (band f (bvar (fst e))) then lower
                  else "."%char
                else snd e) (combine vars marks).
(** Choosing values for the entries '.': lines 658-675, 722-739, 775-792, 902-919, 970-987 and
    1027-1044; the result contains the function that remains. *)
Fixpoint fill (f : BF) (vars : list nat) (marks : list ascii) : outcome (list ascii * BF) :=
  match vars, marks with
  | v :: vars, m :: marks =>
      if (m =? ".")%char then
        if negb (isFalse (band f (bnot (bvar v)))) then
          obind (fill (band f (bnot (bvar v))) vars marks) (fun r => Next ("0"%char :: fst r, snd r))
        else if negb (isFalse (band f (bvar v))) then
          obind (fill (band f (bvar v)) vars marks) (fun r => Next ("1"%char :: fst r, snd r))
        else Thrown
      else obind (fill f vars marks) (fun r => Next (m :: fst r, snd r))
  | _, _ => Next ([], f)
  end.
Definition noMarks (vars : list nat) : list ascii := map (fun _ => "."%char) vars.

(** XCOMPLETEINIT, lines 616-805, for the values [forced]. *)
Definition completeInit (c : ctx) (t : table) (forced : BF) : outcome reply :=
  let vars := varsT c PreInput ++ varsT c PreOutput in
  let r := t_realizable t in
  let f1 := band (initEnv c) forced in
  let m1 := mark f1 "a" "A" vars (noMarks vars) in
  if isFalse f1 then Next RFailAssumptions else
  let f2 := band f1 (if r then initSys c else t_winning t) in
  if isFalse f2 then
    if r || isTrue forced then obind (fill f1 vars m1) (fun x => Next (RFailGuarantees (fst x) None))
    else Next RForced
  else
  let m2 := if r then markR f2 "g" "G" vars m1 else markR f2 "s" "S" vars m1 in
  let f3 := band f2 (if r then t_winning t else initSys c) in
  if isFalse f3 then
    if r then Next RForced
    else obind (fill f2 vars m2) (fun x => Next (RFailGuarantees (fst x) None))
  else
  let m3 := if r then mark f3 "s" "S" vars m2 else mark f3 "g" "G" vars m2 in
  obind (fill f3 vars m3) (fun x => Next (RMarks (fst x) None)).

(** XSTRATEGYTRANSITION, lines 862-1062, for the starting point [from], the values [forced] and
    the numbers [a] and [g] of an assumption and a guarantee. *)
Definition strategyTransition (c : ctx) (t : table) (from forced : BF) (a g : N) : outcome reply :=
  let vars := varsT c PostInput ++ varsT c PostOutput in
  let r := t_realizable t in
  let nA := length (livenessAssumptions c) in
  let nG := length (livenessGuarantees c) in
  let numbers (a g : N) := Some (N.to_nat (a mod N.of_nat nA), N.to_nat (g mod N.of_nat nG))%N in
  let strategyFor (k : N) := nthN (t_strategies t) k in
  let f1 := band (band from (safetyEnv c)) forced in
  if isFalse f1 then Next RFailAssumptions else
  let m1 := mark f1 "a" "A" vars (noMarks vars) in
  match (if r then Some (safetySys c) else strategyFor a) with
  | None => OutOfBounds
  | Some second =>
      let f2 := band f1 second in
      if isFalse f2 then
        if r then obind (fill f1 vars m1) (fun x => Next (RFailGuarantees (fst x) (numbers a g)))
        else Next RForced
      else
      let m2 := if r then mark f2 "g" "G" vars m1 else mark f2 "s" "S" vars m1 in
      match (if r then strategyFor g else Some (safetySys c)) with
      | None => OutOfBounds
      | Some third =>
          let f3 := band f2 third in
          if isFalse f3 then
            if r then Next RForced
            else obind (fill f2 vars m2) (fun x => Next (RFailGuarantees (fst x) (numbers a g)))
          else
          let m3 := if r then mark f3 "s" "S" vars m2 else mark f3 "g" "G" vars m2 in
          let allSafe := bexists (varCubePost c) (band (safetySys c) (safetyEnv c)) in
          let candidate := band (swapPrePost c allSafe) f3 in
          let f4 := if isFalse candidate then f3 else candidate in
          obind (fill f4 vars m3) (fun x =>
          match nthN (livenessAssumptions c) a, nthN (livenessGuarantees c) g with
          | Some fa, Some fg =>
              Next (RMarks (fst x) (numbers (if blt (snd x) fa then (a + 1) mod uintBound else a)
                                            (if blt (snd x) fg then (g + 1) mod uintBound else g))%N)
          | _, _ => OutOfBounds
          end)
      end
  end.

(** Lines 153-1066: the command is trimmed and in upper case. *)
Definition names (c : ctx) (ty : VariableType) : list string := map (fun i => nth i (varNames c) EmptyString) (varsT c ty).
Definition exec (rand : nat -> bool) (c : ctx) (t : table) (command : string) (s : shell) (i : stream) :
    outcome (reply * shell * stream) :=
  let is := String.eqb command in
  if is "QUIT"%string || is "EXIT"%string then Returned
  else if is "STARTPOS"%string then Next (startPos c t s, i)
  else if is "CHECKTRANS"%string then checkTrans c t s i
  else if is "SETPOS"%string then Next (setPos c s i)
  else if is "MOVE"%string then move c t s i
  else if is "XMAKETRANS"%string then
    if negb (t_realizable t) then Thrown
    else obind (readBits (varsT c PostInput) btrue i) (fun r =>
         obind (makeTrans None c t s (fst r)) (fun q => Next (q, snd r)))
  else if is "XMAKETRANSRANDOM"%string then
    obind (readBits (varsT c PostInput) btrue i) (fun r =>
    obind (makeTrans (Some rand) c t s (fst r)) (fun q => Next (q, snd r)))
  else if is "XPRINTINPUTS"%string then Next (RNames (names c PreInput), s, i)
  else if is "XPRINTOUTPUTS"%string then Next (RNames (names c PreOutput), s, i)
  else if is "XGETNOFLIVENESSPROPERTIES"%string then
    Next (RCounts (length (livenessAssumptions c)) (length (livenessGuarantees c)), s, i)
  else if is "XGETINIT"%string then Next (getInit c t s, i)
  else if is "XCOMPLETEINIT"%string then
    obind (readBits (varsT c PreInput ++ varsT c PreOutput) btrue i) (fun r =>
    obind (completeInit c t (fst r)) (fun q => Next (q, s, snd r)))
  else if is "XSTRATEGYTRANSITION"%string then
    obind (readBits (varsT c PreInput ++ varsT c PreOutput) btrue i) (fun r1 =>
    obind (readBits (varsT c PostInput ++ varsT c PostOutput) btrue (snd r1)) (fun r2 =>
    let '(a, i) := readUInt (snd r2) in
    let '(g, i) := readUInt i in
    match a, g with
    | Some a, Some g => obind (strategyTransition c t (fst r1) (fst r2) a g) (fun q => Next (q, s, i))
    | _, _ => Uninitialised
    end))
  else Next (RUnknown command, s, i).

(** Lines 146-150: the next line that is not empty.  If getline fails and eofbit is not set,
    then it fails again, and so on. *)
Fixpoint nextCommand (fuel : nat) (i : stream) : outcome (string * stream) :=
  match fuel with
  | O => Loops
  | S fuel =>
      let '(l, i) := getline i in
      if ended i then Returned
      else match l with
           | None => Loops
           | Some EmptyString => nextCommand fuel i
           | Some l => Next (l, i)
           end
  end.

(** How the program ends. *)
Inductive ending : Set := Exits | Throws | AccessesOutOfBounds | UsesUninitialised | LoopsForever | NoFuel.
(** Lines 141-1067. *)
Fixpoint session (fuel : nat) (rand : nat -> bool) (c : ctx) (t : table) (s : shell) (i : stream) : list reply * ending :=
  match fuel with
  | O => ([], NoFuel)
  | S fuel =>
      match obind (nextCommand (S (S (String.length (chars i)))) i)
              (fun r => exec rand c t (toUpper (trim (fst r))) s (snd r)) with
      | Next (r, s, i) => let (l, e) := session fuel rand c t s i in (r :: l, e)
      | Returned => ([], Exits)
      | Thrown => ([], Throws)
      | OutOfBounds => ([], AccessesOutOfBounds)
      | Uninitialised => ([], UsesUninitialised)
      | Loops => ([], LoopsForever)
      end
  end.

(** execute, for a given standard input: [None] if the computation at the beginning does not
    end. *)
Definition interactive (alg : algorithm) (rand : nat -> bool) (c : ctx) (input : string) : option (list reply * ending) :=
  match startShell alg c with
  | None => None
  | Some t => Some (session (S (String.length input)) rand c t (mkShell bfalse 0 0) (mkStream input false false))
  end.
