(** * Permissive explicit-state strategies

    Model of class XExtractPermissiveExplicitStrategy
    (/repo/src/extensionPermissiveExplicitStrategy.hpp).  All option combinations of
    /repo/src/main.cpp use it with oneStepRecovery = false. *)

From Coq Require Import String Arith List Bool.
From Verif Require Import BDD Loop VarTypes Synth Solvers AutSpec Explicit.
Import ListNotations.

(** The strategy for one goal, lines 110-128; the accumulator is
    (statesCovered, (stateInputsCovered, strategy)). *)
Definition permissiveStep (c : ctx) (i : nat) (acc : BF * (BF * BF)) (entry : nat * BF) : BF * (BF * BF) :=
  let '(statesCovered, (stateInputsCovered, strategy)) := acc in
  if Nat.eqb (fst entry) i then
    let newCases := band (bexists (varCubePostOutput c) (snd entry)) (bnot statesCovered) in
    let strategy := bor strategy (band (bnot statesCovered) (snd entry)) in
    let stateInputsCovered := bor stateInputsCovered newCases in
    let statesCovered := bforall (varCubePostInput c) (bor (bnot (safetyEnv c)) stateInputsCovered) in
    (statesCovered, (stateInputsCovered, strategy))
  else acc.
Definition permissive (c : ctx) (data : list (nat * BF)) (i : nat) : BF :=
  snd (snd (fold_left (permissiveStep c i) data (bfalse, (bfalse, bfalse)))).

(** computeAndPrintExplicitStateStrategy without the rendering, lines 86-202: the
    worklist starts with all winning positions (line 101). *)
Definition extractPermissive (c : ctx) (winning : BF) (data : list (nat * BF)) : option (list (node * bool)) :=
  match initLoop c winning with
  | None => None
  | Some w => run (mainBody true false c (permissive c data)) (fpFuel c + length (livenessGuarantees c)) (w, [])
  end.

(** Lines 143-158, 197 and 199. *)
Definition permissiveNode (names : list string) (e : node * bool) : string :=
  sconcat ["State "; showNat (n_num (fst e)); " with rank "; showNat (n_rank (fst e)); nl;
    String.concat ", " (map (fun p => sconcat [fst p; ":"; bit (snd p)]) (combine names (n_vals (fst e)))); nl;
    sconcat (map (fun n => sconcat [showNat n; nl]) (n_succ (fst e))); nl]%string.

(** execute, lines 54-77. *)
Definition computePermissive (alg : algorithm) (robotics : bool) (c : ctx) : option (verdict * list (node * bool)) :=
  match solve alg c with
  | None => None
  | Some (w, data) =>
      let v := verdictOf (if robotics then initialCheckRobotics c w else initialCheck c w) in
      match v with
      | Realizable =>
          match extractPermissive c w data with
          | None => None
          | Some out => Some (v, out)
          end
      | _ => Some (v, [])
      end
  end.
Definition executePermissive (alg : algorithm) (robotics : bool) (c : ctx) : option (verdict * string) :=
  match computePermissive alg robotics c with
  | Some (Realizable, out) => Some (Realizable, sconcat (map (permissiveNode (printedNames c)) out))
  | Some (v, _) => Some (v, EmptyString)
  | None => None
  end.
