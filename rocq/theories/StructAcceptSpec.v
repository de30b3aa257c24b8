(** * Specification: plain declarations of variables in structured slugs files

    Independent of the model of the translator.  Follows /repo/doc/input_formats.md, section "structuredslugs". *)

From Coq Require Import String Ascii List Bool Arith ZArith.
From Verif Require Import FormulaSpec FileSpec StructuredSpec StructGrammar StructFileSpec.
Local Open Scope string_scope.

(** A decimal number, with a minus sign if it is negative. *)
Definition decimalInteger (w : string) (z : Z) : Prop :=
  (exists n, numeral w n /\ z = Z.of_N n) \/ (exists v n, w = String "-" v /\ numeral v n /\ z = (- Z.of_N n)%Z).

Definition white (s : string) : Prop := forall c, occursIn c s -> isWs c = true.
(** A name, or name:min...max, possibly with white space around the colon and the dots; names contain no quote and no @. *)
Inductive plainDeclaration : string -> declaration -> Prop :=
| pd_bool x : ~ occursIn ":" x -> ~ occursIn "'" x -> ~ occursIn "@" x -> plainDeclaration x (DBool x)
| pd_int x a b mn mx u v s t : isWordToken x = true -> ~ occursIn "'" x -> ~ occursIn "@" x ->
    decimalInteger a mn -> decimalInteger b mx -> (mn <= mx)%Z -> white u -> white v -> white s -> white t ->
    plainDeclaration (x ++ u ++ ":" ++ v ++ a ++ s ++ "..." ++ t ++ b) (DInt x mn mx).

(** The word is the i-th name of a bit or of its next value, and it may be used in the section; the names for the inputs come
    first. *)
Definition mayName (ins outs : list declaration) (s : section) (w : string) (i : nat) : Prop :=
  nth_error (allNames ins outs) i = Some w /\ may_use s (Nat.leb (length (allNames ins nil)) i) (Nat.odd i) = true.

(** A line that cannot be mistaken for one in prefix notation: without the operator for buffers, and with a word that is no
    operator, constant or name, or with a binary operator that is only followed by negations and one more word. *)
Definition infixOnly (ins outs : list declaration) (line : string) : Prop :=
  ~ In "$" (words line) /\
  ((exists w, In w (words line) /\ ~ In w ("|" :: "&" :: "^" :: "!" :: "0" :: "1" :: "0'" :: "1'" :: nil)%list /\
      forall v, In v (booleanWords ins outs) -> w <> v /\ w <> v ++ "'") \/
   (exists ws o nots w, words line = (ws ++ o :: nots ++ w :: nil)%list /\ In o ("|" :: "&" :: "^" :: nil)%list /\ Forall (eq "!") nots)).

(** A formula that may be written in the section: in prefix notation over the bits, or an infix formula. *)
Definition allowedLine (ins outs : list declaration) (s : section) (line : string) : Prop :=
  (exists g, gram (mayName ins outs s) maxNumber false 0 g (words line)) \/
  (infixOnly ins outs line /\ exists f, reads (booleanWords ins outs) line f /\ supported (integers (ins ++ outs)) false f /\
    forall w, In w (signals (integers (ins ++ outs)) false f) -> exists i, mayName ins outs s w i).
