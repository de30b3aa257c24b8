(** * Weakened safety assumptions (option --computeWeakenedSafetyAssumptions)

    Model of XComputeWeakenedSafetyAssumptions::execute,
    /repo/src/extensionWeakenSafetyAssumptions.hpp:30-178.  Not modelled: the text of the
    output, whose lines are given as vectors with an entry 1, 0 or -1 for each variable (as in
    the code), and the check at the end, which is compiled only without NDEBUG. *)

From Coq Require Import ZArith Arith List Bool.
From Verif Require Import BDD Loop VarTypes Synth Explicit Cnf Assume.
Import ListNotations.

(** checkRealizability after safetyEnv has been assigned; [None] if no result is computed. *)
Definition realizableWith (c : ctx) (safety : BF) : option bool :=
  match checkRealizability (withAssumptions c safety (livenessAssumptions c)) with
  | Realizable => Some true
  | Unrealizable => Some false
  | _ => None
  end.

(** ** Fewer variables, lines 33-48 *)
Definition interestingVars (c : ctx) : list nat :=
  flat_map (fun ty => filter (fun i => vt_eqb (typeOf c i) ty) (allVars c)) [PostInput; PreOutput; PreInput].
Fixpoint fewerVars (c : ctx) (vars : list nat) (current : BF) : option BF :=
  match vars with
  | [] => Some current
  | i :: vars =>
      let safety := bexists [i] current in
      match realizableWith c safety with
      | None => None
      | Some true => fewerVars c vars safety
      | Some false => fewerVars c vars current
      end
  end.

(** ** Clauses, lines 50-72 *)

(** One variable, lines 57-68; the state is (thisClause, thisClauseInt, elementsInThisClause). *)
Definition literalStep (current : BF) (st : BF * list Z * nat) (i : nat) : BF * list Z * nat :=
  let '(clause, ints, elements) := st in
  let try := bexists [i] clause in
  if isFalse (band try current) then (try, ints ++ [0%Z], elements)
  else if isFalse (band clause (bvar i)) then (clause, ints ++ [1%Z], S elements)
  else (clause, ints ++ [(-1)%Z], S elements).
(** Loop, lines 52-72; the state is (currentAssumptions, clauses).  The clauses are kept in
    the order in which they are found, together with the number of elements. *)
Definition clausesBody (c : ctx) (st : BF * list (nat * (list Z * BF))) :
    step (BF * list (nat * (list Z * BF))) (list (nat * (list Z * BF))) :=
  let '(current, clauses) := st in
  if isTrue current then Done clauses else
  let cube := determinize (bnot current) (allVars c) in
  let '(clause, ints, elements) := fold_left (literalStep current) (allVars c) (cube, [], 0) in
  Cont (bor current clause, clauses ++ [(elements, (ints, bnot clause))]).
(** The map from numbers of elements to clauses, from its end to its beginning (lines 79-80). *)
Definition longestFirst (c : ctx) (clauses : list (nat * (list Z * BF))) : list (list Z * BF) :=
  flat_map (fun k => map snd (filter (fun e => Nat.eqb (fst e) k) clauses)) (rev (seq 0 (S (length (varTypes c))))).

(** ** Removing clauses, lines 74-110 *)

(** std::set<std::vector<int>>: a list that is sorted lexicographically. *)
Fixpoint insertClause (v : list Z) (l : list (list Z)) : list (list Z) :=
  match l with
  | [] => [v]
  | w :: l' =>
      match (fix cmp (a b : list Z) : comparison :=
               match a, b with
               | [], [] => Eq
               | [], _ => Lt
               | _, [] => Gt
               | x :: a, y :: b => match (x ?= y)%Z with Eq => cmp a b | r => r end
               end) v w with
      | Lt => v :: l
      | Eq => l
      | Gt => w :: insertClause v l'
      end
  end.
(** The result is clausesFoundSoFarInt. *)
Fixpoint essential (c : ctx) (clauses : list (list Z * BF)) (found : BF) (ints : list (list Z)) : option (list (list Z)) :=
  match clauses with
  | [] => Some ints
  | (v, b) :: clauses =>
      let rest := fold_left band (map snd clauses) btrue in
      match realizableWith c (band rest found) with
      | None => None
      | Some true => essential c clauses found ints
      | Some false => essential c clauses (band found b) (insertClause v ints)
      end
  end.

(** ** Removing literals, lines 112-162 *)

(** The disjunction of the literals with an index of at least [i] (lines 119-126, 134-140). *)
Fixpoint literalsFrom (v : list Z) (i : nat) (acc : BF) : BF :=
  match v with
  | [] => acc
  | z :: v =>
      literalsFrom v (S i) (if (0 <? z)%Z then bor acc (bvar i) else if (z <? 0)%Z then bor acc (bnot (bvar i)) else acc)
  end.
(** Lines 130-158; [v] is the part of thisClause from index [i] on, and [others] is
    clausesSoFar & nextClauses.  The result is (filteredLiterals, committedLiterals). *)
Fixpoint filterLiterals (others : BF) (v : list Z) (i : nat) (filtered : list Z) (committed : BF) : list Z * BF :=
  match v with
  | [] => (filtered, committed)
  | z :: v =>
      let rest := literalsFrom v (S i) committed in
      let literal := if (0 <? z)%Z then bvar i else bnot (bvar i) in
      if bf_eqb (band others rest) (band others (bor rest literal))
      then filterLiterals others v (S i) (filtered ++ [0%Z]) committed
      else filterLiterals others v (S i) (filtered ++ [z]) (bor committed literal)
  end.
(** Lines 114-162.  For each of the remaining clauses, nextClauses gets the literals of
    thisClause (lines 121-125). *)
Fixpoint filterClauses (clauses : list (list Z)) (soFar : BF) (out : list (list Z)) : list (list Z) :=
  match clauses with
  | [] => out
  | v :: clauses =>
      let next := fold_left (fun acc (_ : list Z) => band acc (literalsFrom v 0 bfalse)) clauses btrue in
      let '(filtered, committed) := filterLiterals (band soFar next) v 0 [] bfalse in
      filterClauses clauses (band soFar committed) (insertClause filtered out)
  end.

(** ** execute *)

(** Clauses before literals are removed (lines 33-110), and the printed ones. *)
Definition essentialClauses (c : ctx) : option (list (list Z)) :=
  match fewerVars c (interestingVars c) (safetyEnv c) with
  | None => None
  | Some current =>
      match run (clausesBody c) (fpFuel c) (current, []) with
      | None => None
      | Some clauses => essential c (longestFirst c clauses) btrue []
      end
  end.
Definition weakenedAssumptions (c : ctx) : option (list (list Z)) :=
  match essentialClauses c with
  | None => None
  | Some ints => Some (filterClauses ints btrue [])
  end.
