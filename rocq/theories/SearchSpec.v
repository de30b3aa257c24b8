(** * Specification side: searches for realizable parameters

    Independent of the model of the code. *)

From Coq Require Import String Ascii ZArith List Bool.
From Verif Require Import FileSpec.
Import ListNotations.
Local Open Scope Z_scope.

(** A line with one of the two results. *)
Definition says (b : bool) (line : string) : Prop :=
  strip line = if b then "RESULT: Specification is realizable."%string else "RESULT: Specification is unrealizable."%string.
(** A run (lines of the output and exit code) gives an answer if it succeeds and there is exactly one
    line with a result. *)
Definition answers (output : list string * Z) (b : bool) : Prop :=
  snd output = 0 /\
  exists A line B, fst output = (A ++ line :: B)%list /\ says b line /\
    forall x b', In x (A ++ B)%list -> ~ says b' x.

(** The least and the greatest value of an interval with some property. *)
Definition least (P : Z -> bool) (lo hi v : Z) : Prop :=
  lo <= v <= hi /\ P v = true /\ forall w, lo <= w -> P w = true -> v <= w.
Definition greatest (P : Z -> bool) (lo hi v : Z) : Prop :=
  lo <= v <= hi /\ P v = true /\ forall w, w <= hi -> P w = true -> w <= v.

(** Parameters have a minimum, a maximum and a direction ([true]: greater values are easier). *)
Definition in_box (ps : list (Z * Z * bool)) (t : list Z) : Prop :=
  Forall2 (fun (p : Z * Z * bool) v => fst (fst p) <= v <= snd (fst p)) ps t.
(** All the values of [b] are at least as easy as those of [a]. *)
Inductive easier : list (Z * Z * bool) -> list Z -> list Z -> Prop :=
| easier_nil : easier [] [] []
| easier_cons (p : Z * Z * bool) ps v a w b : (if snd p : bool then v <= w else w <= v) -> easier ps a b -> easier (p :: ps) (v :: a) (w :: b).
(** A realizable tuple such that no other realizable tuple is harder. *)
Definition pareto (ps : list (Z * Z * bool)) (P : list Z -> bool) (t : list Z) : Prop :=
  in_box ps t /\ P t = true /\ forall u, in_box ps u -> P u = true -> easier ps u t -> u = t.
