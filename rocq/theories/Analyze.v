(** * Analysis of the initial positions (option --analyzeInitialPositions)

    Model of /repo/src/extensionAnalyzeInitialPositions.hpp, of the counting function in
    /repo/src/BFAbstractionLibrary/BFCudd.cpp:17-78 and of
    /repo/src/BFAbstractionLibrary/BFCuddMintermEnumerator.cpp. *)

From Coq Require Import String Ascii ZArith NArith Arith List Bool.
From Verif Require Import BDD Loop VarTypes Synth Parser.
Import ListNotations.
Local Open Scope list_scope.

(** ** Counting *)

(** recurse_getNofSatisfyingAssignments, BFCudd.cpp:17-61.  [cube] is the conjunction of
    the variables, [None] is quiet_NaN (lines 45 and 53), which the sums and products
    propagate.  Simplifications: exact numbers instead of doubles, no buffer (lines 56 and
    59: the cube belonging to a node is determined by its level, so the buffered value is
    the one computed here), variable order by index. *)
Definition nanAdd (a b : option N) : option N :=
  match a, b with
  | Some a, Some b => Some (a + b)%N
  | _, _ => None
  end.
Definition nanDouble (a : option N) : option N :=
  match a with
  | Some a => Some (2 * a)%N
  | None => None
  end.
Fixpoint countRec (cube t : tree) : option N :=
  match cube, t with
  | Leaf _, Leaf b => Some (if b then 1%N else 0%N)
  | Leaf _, Node _ _ _ => None
  | Node _ _ next, Leaf _ => nanDouble (countRec next t)
  | Node v _ next, Node x l h =>
      if Nat.ltb v x then nanDouble (countRec next t)
      else if Nat.ltb x v then None
      else nanAdd (countRec next h) (countRec next l)
  end.
(** BFBddVarCube: the conjunction of the variables (BFCuddVarCube.h). *)
Definition cubeBF (vs : list nat) : BF := fold_right (fun v f => band (bvar v) f) btrue vs.
(** getNofSatisfyingAssignments, BFCudd.cpp:69-76. *)
Definition countSat (vs : list nat) (f : BF) : option N := countRec (bft (cubeBF vs)) (bft f).

(** The number shown by operator<< of std::cout for a double with an integral value
    (analyzeInitialPositions.hpp:217-222): six significant digits.  For a value of at least
    10^6 the remaining digits are rounded; the function yields the number that the
    text denotes. *)
Fixpoint decimals (fuel : nat) (n : N) : nat :=
  match fuel with
  | O => O
  | S fuel => if (n <? 10)%N then 1 else S (decimals fuel (n / 10))
  end.
Definition shown (n : N) : N :=
  let k := (10 ^ N.of_nat (decimals (N.size_nat n) n - 6))%N in
  let q := (n / k)%N in
  let r := (n mod k)%N in
  let up := ((k <? 2 * r) || ((k =? 2 * r) && N.odd q))%N in
  ((if up then q + 1 else q) * k)%N.

(** ** Reading the file *)

(** Lines 264-384 of analyzeInitialPositions.hpp.  Apart from the treatment of
    variable limits the statements are those of GR1Context::init ([processLine]).  The
    additional state is (readingVariableLimitLine, variableLimits). *)
Definition limitPrefix : string := "## Variable limits: ".
Definition processLineL (ord : nat -> bool) (st : (mode * ctx) * (bool * BF)) (line0 : string) :
    pres ((mode * ctx) * (bool * BF)) :=
  let '((m, c), (flag, lim)) := st in
  let line := trim line0 in
  match line with
  | EmptyString => POk st
  | String a _ =>
      if (a =? "#")%char then                                            (* lines 285-288 *)
        POk ((m, c), (if String.eqb (substring 0 20 line) limitPrefix then true else flag, lim))
      else if (a =? "[")%char then                                       (* lines 289-311 *)
        pbind (processLine ord (m, c) line0) (fun st' => POk (st', (false, lim)))
      else
        pbind (processLine ord (m, c) line0) (fun st' =>
        let keep := POk (st', (false, lim)) in                            (* line 371 *)
        match m with
        | MEnvInit => if flag then pbind (formula ord c [PreInput] line) (fun b => POk (st', (false, band lim b)))
                      else keep                                           (* line 324 *)
        | MSysInit => if flag then pbind (formula ord c [PreInput; PreOutput] line) (fun b => POk (st', (false, band lim b)))
                      else keep                                           (* line 331 *)
        | MEnvLive | MSysLive => if flag then PErr LimitOnLiveness else keep   (* lines 354 and 362 *)
        | _ => keep
        end)
  end.
Fixpoint processLinesL (ord : nat -> bool) (st : (mode * ctx) * (bool * BF)) (lines : list string) :
    pres ((mode * ctx) * (bool * BF)) :=
  match lines with
  | [] => POk st
  | l :: ls => pbind (processLineL ord st l) (fun st => processLinesL ord st ls)
  end.
(** init, lines 252-384: the specification and variableLimits. *)
Definition initLimits (ord : nat -> bool) (content : string) : pres (ctx * BF) :=
  pbind (processLinesL ord ((MNone, emptyCtx), (false, btrue)) (getlines content)) (fun '((_, c), (_, lim)) =>
  pbind (finish c) (fun c => POk (c, lim))).

(** ** The numbers *)

(** Lines 190-200; the state is (reachableStates, oldReachableStates). *)
Definition reachBody (c : ctx) (st : BF * BF) : step (BF * BF) BF :=
  let '(reach, old) := st in
  if bf_eqb reach old then Done reach
  else Cont (bor reach (swapPrePost c (bexists (varCubePre c)
               (band reach (band (safetyEnv c) (safetySys c))))), reach).
Definition reachableStates (c : ctx) : option BF :=
  run (reachBody c) (fpFuel c) (band (initSys c) (initEnv c), bfalse).

Record counts : Type := mkCounts {
  nofPos : option N; nofPosA : option N; nofPosG : option N; nofPosAG : option N;
  nofWPos : option N; nofWPosA : option N; nofWPosG : option N; nofWPosAG : option N;
  nofInputs : option N; nofInputsSystemLosing : option N; nofAllowedInitialInputs : option N
}.

(** Lines 203-214. *)
Definition countsOf (c : ctx) (w limits : BF) : counts :=
  mkCounts
    (countSat (varCubePre c) limits)
    (countSat (varCubePre c) (band (initEnv c) limits))
    (countSat (varCubePre c) (band (initSys c) limits))
    (countSat (varCubePre c) (band (band (initEnv c) (initSys c)) limits))
    (countSat (varCubePre c) (band w limits))
    (countSat (varCubePre c) (band (band (initEnv c) w) limits))
    (countSat (varCubePre c) (band (band (initSys c) w) limits))
    (countSat (varCubePre c) (band (band (band (initEnv c) (initSys c)) w) limits))
    (countSat (varCubePreInput c) (bexists (varCubePreOutput c) limits))
    (countSat (varCubePreInput c)
       (band (band (initEnv c) limits) (bnot (bexists (varCubePreOutput c) (band w (initSys c))))))
    (countSat (varCubePreInput c) (band (initEnv c) (bexists (varCubePreOutput c) limits))).

(** ** The printed cubes *)

(** Constructor of BFMintermEnumerator, BFCuddMintermEnumerator.cpp:5-24. *)
Definition mintermStep (R : BF) (ps : nat * nat) : BF :=
  let '(p, s) := ps in
  bor (band (bnot (bexists [p] (bnot R))) (bvar s)) (band R (bnot (bvar s))).
Definition minterms (prim sec : list nat) (f care : BF) : BF :=
  band (fold_left mintermStep (combine prim sec) f) care.

(** A path from the root of a diagram to the TRUE node: the visited variables with the
    chosen branch. *)
Fixpoint isPath (t : tree) (p : list (nat * bool)) : bool :=
  match t, p with
  | Leaf b, [] => b
  | Node v l h, (x, b) :: p => Nat.eqb v x && isPath (if b : bool then h else l) p
  | _, _ => false
  end.
Definition onPath (p : list (nat * bool)) (v : nat) (b : bool) : bool :=
  existsb (fun '(x, b') => Nat.eqb x v && Bool.eqb b' b) p.

(** getNextMinterm, BFCuddMintermEnumerator.cpp:66-217, lines 129-145, for the path found
    by the search: the cube (-1, 0, 1 for each primary variable) and the remaining
    minterms. *)
Definition literal (p : list (nat * bool)) (ps : nat * nat) : Z :=
  if onPath p (snd ps) false then (if onPath p (fst ps) true then 1%Z else (-1)%Z) else 0%Z.
Definition excluded (p : list (nat * bool)) (pss : list (nat * nat)) : BF :=
  fold_left (fun acc ps => if onPath p (snd ps) false then bor acc (bvar (snd ps)) else acc) pss bfalse.
Definition nextMinterm (prim sec : list nat) (p : list (nat * bool)) (R : BF) : list Z * BF :=
  (map (literal p) (combine prim sec), band R (excluded p (combine prim sec))).

(** The search of lines 73-186 looks for a path with the smallest number of negative
    branches at secondary variables; which one of them is found depends on the
    addresses of the nodes.  It is a parameter of the model; [cheapest] is one
    possible choice. *)
Fixpoint cheapest (isSec : nat -> bool) (t : tree) : option (nat * list (nat * bool)) :=
  match t with
  | Leaf true => Some (0, [])
  | Leaf false => None
  | Node v l h =>
      let lo := match cheapest isSec l with
                | Some (n, p) => Some ((if isSec v then S n else n), (v, false) :: p)
                | None => None
                end in
      let hi := match cheapest isSec h with
                | Some (n, p) => Some (n, (v, true) :: p)
                | None => None
                end in
      match hi, lo with
      | Some (n, p), Some (n', p') => if Nat.ltb n' n then lo else hi
      | Some _, None => hi
      | None, _ => lo
      end
  end.

(** printLargePreCubes, lines 61-173.  [render] yields the text of a line for a cube
    (lines 127-163; it depends on the variable names and groups), [pick] is the path
    search.  Not modelled: exceptions for malformed names of variable groups. *)
Inductive cubeList : Type :=
| PrintTrue
| PrintNone
| PrintCubes (l : list (list Z)).
Definition cubesBody (c : ctx) (pick : BF -> list (nat * bool)) (render : list Z -> string)
    (st : BF * (list string * list (list Z))) : step (BF * (list string * list (list Z))) (list (list Z)) :=
  let '(R, (seen, out)) := st in
  if Nat.ltb (length out) 7 && negb (isFalse R) then
    let '(cube, R') := nextMinterm (preVars c) (postVars c) (pick R) R in
    let line := render cube in
    if existsb (String.eqb line) seen then Cont (R', (seen, out))
    else Cont (R', (line :: seen, out ++ [cube]))
  else Done out.
Definition printLargePreCubes (c : ctx) (pick : BF -> list (nat * bool)) (render : list Z -> string)
    (pre care : BF) : option cubeList :=
  if bleq care pre then Some PrintTrue
  else if bf_eqb (band pre care) bfalse then Some PrintNone
  else match run (cubesBody c pick render) (fpFuel c)
               (minterms (preVars c) (postVars c) (bor pre (bnot care)) care, ([], [])) with
       | Some l => Some (PrintCubes l)
       | None => None
       end.

(** The line of a cube if no variable name contains an at sign, lines 127-144. *)
Fixpoint renderNames (names : list string) (cube : list Z) : string :=
  match names, cube with
  | n :: names, z :: cube =>
      ((if (z =? -1)%Z then " !" ++ n else if (z =? 1)%Z then " " ++ n else "") ++ renderNames names cube)%string
  | _, _ => ""%string
  end.

(** execute, lines 186-245: the numbers and the sets whose cubes are printed.  [None]
    is exhaustion of fuel. *)
Record analysis : Type := mkAnalysis { an_counts : counts; an_limits : BF; an_winning : BF }.
Definition analyze (restrict : bool) (c : ctx) (limits : BF) : option analysis :=
  match computeWinningPositions c with
  | None => None
  | Some (w, _) =>
      match (if restrict then reachableStates c else Some btrue) with
      | None => None
      | Some r =>
          let lim := if restrict then band limits r else limits in
          Some (mkAnalysis (countsOf c w lim) lim w)
      end
  end.
(** The pairs given to printLargePreCubes, lines 225-244. *)
Definition cubeSets (c : ctx) (w : BF) : list BF :=
  [w; bnot w; band w (initEnv c); band (bnot w) (initEnv c); band w (initSys c); band (bnot w) (initSys c);
   band (band w (initEnv c)) (initSys c); band (band (bnot w) (initEnv c)) (initSys c);
   band w (bnot (bexists (varCubePostInput c) (safetyEnv c)))].
