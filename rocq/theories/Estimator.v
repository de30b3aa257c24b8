(** * Model: extensionIncompleteInformationEstimatorSynthesis.hpp (--computeIncompleteInformationEstimator)

    Computes constraints for an estimator of a partially observable domain.  Not modelled: dots and
    headings on stderr, the dot files in /tmp (weakDeterminize, lines 544-559, is only used for
    them), reordering of variables while a diagram is printed. *)

From Coq Require Import String Ascii Arith NArith ZArith List Bool.
From Verif Require Import BDD Loop VarTypes Parser Explicit.
Import ListNotations.
Local Open Scope string_scope.

(** ** Reading the file, lines 45-152 *)

(** The values of readMode; [EMode] for those that GR1Context::init has as well. *)
Inductive modeE : Set := EMode (m : mode) | EObservable | EUnobservable | EControllable.
(** Lines 71-91. *)
Definition categoryE (line : string) : option modeE :=
  if String.eqb line "[OBSERVABLE_INPUT]" then Some EObservable
  else if String.eqb line "[UNOBSERVABLE_INPUT]" then Some EUnobservable
  else if String.eqb line "[CONTROLLABLE_INPUT]" then Some EControllable
  else if String.eqb line "[OUTPUT]" then Some (EMode MOutput)
  else if String.eqb line "[ENV_INIT]" then Some (EMode MEnvInit)
  else if String.eqb line "[SYS_INIT]" then Some (EMode MSysInit)
  else if String.eqb line "[ENV_TRANS]" then Some (EMode MEnvTrans)
  else if String.eqb line "[SYS_TRANS]" then Some (EMode MSysTrans)
  else None.
(** One line, lines 68-146. *)
Definition processLineE (ord : nat -> bool) (st : modeE * ctx) (line0 : string) : pres (modeE * ctx) :=
  let '(m, c) := st in
  let line := trim line0 in
  match line with
  | EmptyString => POk st
  | String a _ =>
      if (a =? "#")%char then POk st
      else if (a =? "[")%char then
        match categoryE line with Some m' => POk (m', c) | None => PErr UnknownCategory end
      else match m with
      | EObservable => POk (m, addVars c ObservablePre ObservablePost line)
      | EUnobservable => POk (m, addVars c UnobservablePre UnobservablePost line)
      | EControllable => POk (m, addVars c ControllablePre ControllablePost line)
      | EMode MOutput => POk (m, addVars c EstimationPre EstimationPost line)
      | EMode MEnvInit => pbind (formula ord c [ObservablePre; ControllablePre; UnobservablePre] line) (fun b =>
          POk (m, mkCtx (varNames c) (varTypes c) (livenessAssumptions c) (livenessGuarantees c)
                    (band (initEnv c) b) (initSys c) (safetyEnv c) (safetySys c)))
      | EMode MSysInit => pbind (formula ord c [ObservablePre; ControllablePre; UnobservablePre; EstimationPre] line) (fun b =>
          POk (m, mkCtx (varNames c) (varTypes c) (livenessAssumptions c) (livenessGuarantees c)
                    (initEnv c) (band (initSys c) b) (safetyEnv c) (safetySys c)))
      | EMode MEnvTrans => pbind (formula ord c [ObservablePre; ControllablePre; UnobservablePre; EstimationPre;
                                                 ObservablePost; UnobservablePost; ControllablePost] line) (fun b =>
          POk (m, mkCtx (varNames c) (varTypes c) (livenessAssumptions c) (livenessGuarantees c)
                    (initEnv c) (initSys c) (band (safetyEnv c) b) (safetySys c)))
      | EMode MSysTrans => pbind (formula ord c [ObservablePre; ControllablePre; UnobservablePre; EstimationPre;
                                                 ObservablePost; UnobservablePost; EstimationPost; ControllablePost] line) (fun b =>
          POk (m, mkCtx (varNames c) (varTypes c) (livenessAssumptions c) (livenessGuarantees c)
                    (initEnv c) (initSys c) (safetyEnv c) (band (safetySys c) b)))
      | EMode _ => PErr NoCategory
      end
  end.
Fixpoint processLinesE (ord : nat -> bool) (st : modeE * ctx) (lines : list string) : pres (modeE * ctx) :=
  match lines with
  | [] => POk st
  | l :: ls => pbind (processLineE ord st l) (fun st => processLinesE ord st ls)
  end.
(** Lines 149-151. *)
Definition finishE (c : ctx) : pres ctx :=
  if (setSize (varNames c) =? length (varNames c))%nat then POk c else PErr DuplicateName.
(** init, lines 45-152. *)
Definition initE (ord : nat -> bool) (content : string) : pres ctx :=
  pbind (processLinesE ord (EMode MNone, emptyCtx) (getlines content)) (fun '(_, c) => finishE c).

(** ** execute, lines 217-381 *)

(** Lines 33-35. *)
Definition varCubeUnobservables (c : ctx) : list nat := varsOf (varTypes c) [UnobservablePre; UnobservablePost].
Definition varCubeEstimationPost (c : ctx) : list nat := varsOf (varTypes c) [EstimationPost].
Definition varCubeEverythingBut (c : ctx) : list nat :=
  varsOf (varTypes c) [ControllablePost; UnobservablePre; UnobservablePost; EstimationPost].

(** The states that are reachable with the transitions [T], lines 220-236, 337-344 and 357-363; the
    loop state is (reachableStates, oldReachableStates). *)
Definition reachBodyE (c : ctx) (T : BF) (st : BF * BF) : step (BF * BF) BF :=
  let '(reach, old) := st in
  if bf_eqb reach old then Done reach
  else Cont (bor reach (swapPrePost c (bexists (varCubePre c) (band reach T))), reach).
Definition reachE (c : ctx) (T : BF) : option BF :=
  run (reachBodyE c T) (fpFuel c) (band (initSys c) (initEnv c), bfalse).

(** Line 268. *)
Definition estimator0 (c : ctx) (reach : BF) : BF :=
  bnot (bexists (varCubeUnobservables c) (band (band reach (safetyEnv c)) (bnot (safetySys c)))).
(** Lines 280-302, for variable number [i]. *)
Definition refine (c : ctx) (strategy : BF) (i : nat) : BF :=
  let name := nth i (varNames c) "" in
  let postVar := bvar (S i) in
  if inherits (nth i (varTypes c) NoneVariableType) EstimationPre then
    if String.prefix "min_" name then
      band strategy (bor (bnot (bexists (varCubeEstimationPost c) (band strategy postVar))) postVar)
    else if String.prefix "max_" name then
      band strategy (bor (bnot (bexists (varCubeEstimationPost c) (band strategy (bnot postVar)))) (bnot postVar))
    else strategy
  else strategy.
(** Lines 268-303. *)
Definition estimatorOf (c : ctx) (reach : BF) : BF :=
  fold_left (refine c) (rev (seq 0 (length (varTypes c)))) (estimator0 c reach).

(** Line 347. *)
Definition assumptionOf (c : ctx) (reach : BF) : BF :=
  bexists (varCubeEverythingBut c) (band reach (safetyEnv c)).
(** Lines 366 and 374. *)
Definition envDeadEnds (c : ctx) (assumption reach : BF) : BF :=
  band (bnot (bexists (varCubePost c) assumption)) reach.
Definition sysDeadEnds (c : ctx) (strategy deadEnds reach : BF) : BF :=
  band (band (bnot deadEnds) (bforall (varCubeEstimationPost c) (bnot strategy))) reach.

(** What lines 217-381 find out: the warnings in lines 240, 367 and 375, the two formulas that are
    printed, and allTransitions (line 388). *)
Record estimate : Type := mkEstimate {
  e_noInitial : bool;
  e_sys : BF;
  e_env : BF;
  e_envDead : bool;
  e_sysDead : bool;
  e_all : BF
}.
Definition estimation (c : ctx) : option estimate :=
  match reachE c (band (safetyEnv c) (safetySys c)) with
  | None => None
  | Some reach =>
      let strategy := estimatorOf c reach in
      match reachE c (band (band (safetyEnv c) (safetySys c)) strategy) with
      | None => None
      | Some reach2 =>
          let assumption := assumptionOf c reach2 in
          let combined := band (band (safetyEnv c) assumption) strategy in
          match reachE c combined with
          | None => None
          | Some reach3 =>
              let dead := envDeadEnds c assumption reach3 in
              Some (mkEstimate (isFalse reach) strategy assumption (negb (isFalse dead))
                      (negb (isFalse (sysDeadEnds c strategy dead reach3)))
                      (band combined reach3))
          end
      end
  end.

(** ** Printing a formula, lines 157-213 *)

(** The root of a diagram: readNodeIndex, mapped to the number of the variable (lines 175 and 192-194). *)
Definition rootOf (f : BF) : option nat := match bft f with Leaf _ => None | Node v _ _ => Some v end.
(** nodes: the parts of the functions that have been printed; a function is identified by the node
    (getHashCode). *)
Fixpoint lookupNode (nodes : list (BF * nat)) (f : BF) : option nat :=
  match nodes with
  | [] => None
  | (g, k) :: nodes => if bf_eqb g f then Some k else lookupNode nodes f
  end.
(** Lines 180-181. *)
Definition partText (name : string) (qTrue qFalse : nat) : string :=
  sconcat ["| & "; name; " ? "; showNat qTrue; " & ! "; name; " ? "; showNat qFalse].
(** recursePrintBFAsSlugsExpression, lines 159-187: the number of the part, and the new (nodes, parts).
    [None]: out of fuel. *)
Fixpoint printRec (fuel : nat) (names : list string) (f : BF) (st : list (BF * nat) * list string) :
    option (nat * (list (BF * nat) * list string)) :=
  match fuel with
  | O => None
  | S fuel =>
      match lookupNode (fst st) f with
      | Some k => Some (k, st)
      | None =>
          let add text (st : list (BF * nat) * list string) :=
            let k := List.length (snd st) in Some (k, ((f, k) :: fst st, (snd st ++ [text])%list)) in
          if isFalse f then add "0" st
          else if isTrue f then add "1" st
          else match rootOf f with
          | None => None
          | Some v =>
              let trueSucc := bexists [v] (band f (bvar v)) in
              let falseSucc := bexists [v] (band f (bnot (bvar v))) in
              match printRec fuel names trueSucc st with
              | None => None
              | Some (qTrue, st) =>
                  match printRec fuel names falseSucc st with
                  | None => None
                  | Some (qFalse, st) => add (partText (nth v names "") qTrue qFalse) st
                  end
              end
          end
      end
  end.
(** printBFAsSlugsExpression, lines 189-213: the parts, and the text. *)
Definition printParts (names : list string) (f : BF) : option (list string) :=
  match printRec (S (S (List.length names))) names f ([], []) with
  | None => None
  | Some (_, (_, parts)) => Some parts
  end.
Definition printFormula (names : list string) (f : BF) : option string :=
  match printParts names f with
  | None => None
  | Some parts => Some (sconcat ("$ " :: showNat (List.length parts) :: map (fun p => " " ++ p) parts))
  end.

(** The standard output, lines 324-331 and 348-351. *)
Definition estimatorText (names : list string) (e : estimate) : option string :=
  match printFormula names (e_sys e), printFormula names (e_env e) with
  | Some sys, Some env => Some (sconcat
      ["#======================================================="; nl;
       "#= Belief Space Abstraction                            ="; nl;
       "#======================================================="; nl;
       "# --- End of the specification for the report"; nl;
       "[SYS_TRANS]"; nl; sys; nl; "[ENV_TRANS]"; nl; env; nl])
  | _, _ => None
  end.

(** ** Differences of numbers, lines 387-541 *)

(** name.find(c): the parts before and after the first occurrence of a character. *)
Fixpoint splitAt (ch : ascii) (s : string) : option (string * string) :=
  match s with
  | EmptyString => None
  | String a s' =>
      if (a =? ch)%char then Some (EmptyString, s')
      else match splitAt ch s' with Some (u, v) => Some (String a u, v) | None => None end
  end.
(** boost::split with is_any_of("."). *)
Fixpoint splitDots (s : string) : list string :=
  match s with
  | EmptyString => [""]
  | String a s' =>
      if (a =? ".")%char then "" :: splitDots s'
      else match splitDots s' with p :: ps => String a p :: ps | [] => [] end
  end.

(** Reasons for leaving the loops early: an exception (the numbers are those in its text; 9 and 10
    for the other ones), undefined behaviour (the variable of a bit is missing, so that
    findVariableNumber returns -1 as asserts are disabled), a loop that does not end as the counter
    cannot exceed its limit. *)
Inductive rerror : Set := RError (n : nat) | RUndefined | RDiverges.
Definition rres (A : Type) : Type := (A + rerror)%type.
Definition rbind {A B} (x : rres A) (f : A -> rres B) : rres B := match x with inl a => f a | inr e => inr e end.

(** Lines 400-421 and 431-448: minimum and maximum in a suffix; [base] is the number in the first
    error text, [primed] tells if a prime must follow. *)
Definition parseRange (base : nat) (primed : bool) (suffix : string) : rres (N * N) :=
  match splitDots suffix with
  | [p0; p1; p2] =>
      if negb (String.eqb p0 "0") then inr (RError (S base))
      else match readUnsigned p1 with
      | None => inr (RError (2 + base))
      | Some (lo, _) =>
          match readUnsigned p2 with
          | None => inr (RError (3 + base))
          | Some (hi, rest) =>
              match skipWs rest with
              | EmptyString => if primed then inr (RError 9) else inl (lo, hi)
              | String a _ => if negb primed || negb (a =? "'")%char then inr (RError 10) else inl (lo, hi)
              end
          end
      end
  | _ => inr (RError base)
  end.

(** The conjunction of literals for a value of a number, lines 458-480 and 485-507. *)
Definition literalOf (v : nat) (b : bool) : BF := if b then bvar v else bnot (bvar v).
Fixpoint bitsFrom (c : ctx) (prefix : string) (primed : bool) (value : N) (i n : nat) (acc : BF) : rres BF :=
  match n with
  | O => inl acc
  | S n =>
      match findVar (varNames c) 0 (sconcat [prefix; "@"; showNat i; if primed then "'" else ""]) with
      | None => inr RUndefined
      | Some v => bitsFrom c prefix primed value (S i) n (band acc (literalOf v (N.testbit value (N.of_nat i))))
      end
  end.
Definition valueBF (c : ctx) (var : nat) (prefix : string) (primed : bool) (lo hi value : N) : rres BF :=
  bitsFrom c prefix primed (value - lo) 1 (pred (N.to_nat (N.size (hi - lo)))) (band btrue (literalOf var (N.testbit (value - lo) 0))).

(** Conversion to int. *)
Definition wrap (z : Z) : Z :=
  let m := (z mod 4294967296)%Z in if (m <? 2147483648)%Z then m else (m - 4294967296)%Z.

(** for (value = lo; value <= hi; value++): the counter is unsigned. *)
Definition forRange {A} (lo hi : N) (body : N -> A -> rres A) (a : A) : rres A :=
  if (uintBound <=? hi + 1)%N then inr RDiverges
  else snd (N.iter (hi + 1 - lo) (fun st : N * rres A => (fst st + 1, rbind (snd st) (body (fst st)))%N) (lo, inl a)).

(** Lines 451-532: minDiff and maxDiff. *)
Definition differences (c : ctx) (all : BF) (ref : nat) (refPrefix : string) (refPrimed : bool) (rlo rhi : N)
    (sim : nat) (simPrefix : string) (slo shi : N) : rres (Z * Z) :=
  forRange rlo rhi (fun r d =>
    rbind (valueBF c ref refPrefix refPrimed rlo rhi r) (fun bfReference =>
    forRange slo shi (fun y d =>
      rbind (valueBF c sim simPrefix true slo shi y) (fun bfSimulated =>
        let diff := wrap (Z.of_N y - Z.of_N r) in
        if ((diff <? fst d)%Z || (snd d <? diff)%Z) && negb (bleq all (bor (bnot bfSimulated) (bnot bfReference)))
        then inl (Z.min (fst d) diff, Z.max (snd d) diff) else inl d)) d))
    (2147483647, -2147483648)%Z.

(** A line of the analysis, lines 534-536: simulatedVarPrefix, referenceVarPrefix, whether a prime
    follows, minDiff, maxDiff; and the numbers of the two variables. *)
Record rangeLine : Type := mkLine {
  l_sim : string; l_ref : string; l_primed : bool; l_min : Z; l_max : Z
}.

(** The loop over the simulated variables, lines 425-538: the lines so far, latest last. *)
Fixpoint simLoop (c : ctx) (all : BF) (ref : nat) (refPrefix : string) (rlo rhi : N) (sims : list nat) (out : list rangeLine) :
    list rangeLine * option rerror :=
  match sims with
  | [] => (out, None)
  | sim :: sims =>
      let name := nth sim (varNames c) "" in
      let '(simPrefix, simSuffix) := match splitAt "@" name with Some p => p | None => (name, name) end in
      if match splitAt "." simSuffix with Some _ => true | None => false end && negb (sim =? ref)%nat &&
         inherits (nth sim (varTypes c) NoneVariableType) EstimationPost
      then
        let primed := inherits (nth ref (varTypes c) NoneVariableType) Post in
        match rbind (parseRange 5 true simSuffix) (fun '(slo, shi) =>
                differences c all ref refPrefix primed rlo rhi sim simPrefix slo shi) with
        | inr e => (out, Some e)
        | inl (lo, hi) => simLoop c all ref refPrefix rlo rhi sims (out ++ [mkLine simPrefix refPrefix primed lo hi])%list
        end
      else simLoop c all ref refPrefix rlo rhi sims out
  end.
(** The loop over the reference variables, lines 390-541. *)
Fixpoint refLoop (c : ctx) (all : BF) (refs : list nat) (out : list rangeLine) : list rangeLine * option rerror :=
  match refs with
  | [] => (out, None)
  | ref :: refs =>
      match splitAt "@" (nth ref (varNames c) "") with
      | None => refLoop c all refs out
      | Some (refPrefix, refSuffix) =>
          match splitAt "." refSuffix with
          | None => refLoop c all refs out
          | Some _ =>
              match parseRange 1 (inherits (nth ref (varTypes c) NoneVariableType) Post) refSuffix with
              | inr e => (out, Some e)
              | inl (rlo, rhi) =>
                  match simLoop c all ref refPrefix rlo rhi (seq 0 (length (varNames c))) out with
                  | (out, None) => refLoop c all refs out
                  | (out, Some e) => (out, Some e)
                  end
              end
          end
      end
  end.
Definition rangeLines (c : ctx) (all : BF) : list rangeLine * option rerror :=
  refLoop c all (seq 0 (length (varNames c))) [].
