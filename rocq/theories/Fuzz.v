(** * Model: tools/fuzzSafetySpecsAgainstAisy.py

    Modelled: one test (fuzzOnce, lines 42-176), that is, the random specification, and the comparison of the answers
    of slugs and of the synthesis tool Aisy.  The random numbers are a list of natural numbers.  slugs is a function
    from the content of its input file to the lines of its error stream and its exit code.  The chain of the tools
    aigtoaig, abc, aigtoaig and Aisy is a function from the lines of the circuit to the exit code of Aisy.  Not
    modelled: the endless loop around the tests and the seed (lines 179-195), the names and locations of files, the
    probabilities, and the bound on the recursion depth of Python. *)

From Coq Require Import String Ascii List Bool Arith ZArith.
From Verif Require Import Parser Explicit FileSpec Aig.
Import ListNotations.
Local Open Scope string_scope.

(** ** Random choices *)

(** Outcome of a computation that uses random numbers: a value together with the numbers not used; more numbers are
    needed; an exception; exhaustion of the fuel of the model. *)
Inductive gres (A : Type) : Type :=
| GOk (a : A) (rest : list nat)
| GMore
| GExc
| GFuel.
Arguments GOk {A}. Arguments GMore {A}. Arguments GExc {A}. Arguments GFuel {A}.

Definition gbind {A B} (x : gres A) (f : A -> list nat -> gres B) : gres B :=
  match x with GOk a ds => f a ds | GMore => GMore | GExc => GExc | GFuel => GFuel end.

Definition draw (ds : list nat) : gres nat := match ds with [] => GMore | d :: ds => GOk d ds end.
(** random.choice(l): an exception for an empty list. *)
Definition choice {A} (l : list A) (ds : list nat) : gres A :=
  match l with
  | [] => GExc
  | a :: _ => gbind (draw ds) (fun d ds => GOk (nth (d mod List.length l) l a) ds)
  end.
(** random.randint(lo,hi). *)
Definition randint (lo hi : nat) (ds : list nat) : gres nat := gbind (draw ds) (fun d ds => GOk (lo + d mod (hi + 1 - lo)) ds).
(** random.random() < p. *)
Definition chance (ds : list nat) : gres bool := gbind (draw ds) (fun d ds => GOk (negb (d =? 0)%nat) ds).

(** ** The random specification *)

(** ops, line 46. *)
Definition ops : list string := ["!"; "&"; "|"; "AP"; "$"; "AP"; "TRUE"].

(** The loop in lines 63-65: k more elements, of which the first one has number i. *)
Fixpoint elements (gen : list string -> list nat -> gres string) (k i : nat) (aps : list string) (allParts : string)
  (ds : list nat) : gres string :=
  match k with
  | O => GOk allParts ds
  | S k => gbind (gen aps ds) (fun p ds =>
             elements gen k (S i) (aps ++ [("? " ++ showNat i)%string])%list (allParts ++ " " ++ p) ds)
  end.

(** makeAProperty, lines 45-69.  The operator next in lines 48-49 is never chosen. *)
Fixpoint makeAProperty (fuel : nat) (aps : list string) (ds : list nat) : gres string :=
  match fuel with
  | O => GFuel
  | S fuel =>
      gbind (choice ops ds) (fun op ds =>
      if String.eqb op "!" then
        gbind (makeAProperty fuel aps ds) (fun p ds => GOk ("! " ++ p) ds)
      else if String.eqb op "&" then
        gbind (makeAProperty fuel aps ds) (fun p ds =>
        gbind (makeAProperty fuel aps ds) (fun q ds => GOk ("& " ++ p ++ " " ++ q) ds))
      else if String.eqb op "|" then
        gbind (makeAProperty fuel aps ds) (fun p ds =>
        gbind (makeAProperty fuel aps ds) (fun q ds => GOk ("| " ++ p ++ " " ++ q) ds))
      else if String.eqb op "AP" then choice aps ds
      else if String.eqb op "$" && negb (existsb (String.eqb "? 0") aps) then
        gbind (randint 1 5 ds) (fun n ds =>
        elements (makeAProperty fuel) n 0 aps ("$ " ++ showNat n) ds)
      else GOk "1" ds)
  end.

(** One of the loops in lines 79-86. *)
Fixpoint properties (fuel : nat) (aps : list string) (ds : list nat) : gres (list string) :=
  match fuel with
  | O => GFuel
  | S fuel =>
      gbind (chance ds) (fun more ds =>
      if more then
        gbind (makeAProperty (S (List.length ds)) aps ds) (fun p ds =>
        gbind (properties fuel aps ds) (fun ps ds => GOk (p :: ps) ds))
      else GOk [] ds)
  end.
Definition propertiesFor (aps : list string) (ds : list nat) : gres (list string) := properties (S (List.length ds)) aps ds.

(** The lists in lines 72-75; n is nofAPsPerType, which is 5 in line 16. *)
Definition apsInput (n : nat) : list string := map (fun i => "in" ++ showNat i) (seq 0 n).
Definition apsOutput (n : nat) : list string := map (fun i => "out" ++ showNat i) (seq 0 n).
Definition post (aps : list string) : list string := map (fun a => a ++ "'") aps.

(** Lines 89-95 for one section. *)
Definition writeSection (title : string) (ls : list string) : string :=
  title ++ nl ++ sconcat (map (fun x => x ++ nl) ls) ++ nl.

(** Lines 71-95: the content of the specification file. *)
Definition specification (n : nat) (ds : list nat) : gres string :=
  gbind (propertiesFor (apsInput n ++ apsOutput n ++ post (apsInput n))%list ds) (fun envTrans ds =>
  gbind (propertiesFor (apsInput n) ds) (fun envInit ds =>
  gbind (propertiesFor (apsOutput n) ds) (fun sysInit ds =>
  gbind (propertiesFor (apsInput n ++ apsOutput n ++ post (apsInput n) ++ post (apsOutput n))%list ds) (fun sysTrans ds =>
  GOk (writeSection "[INPUT]" (apsInput n) ++ writeSection "[OUTPUT]" (apsOutput n) ++
       writeSection "[ENV_INIT]" envInit ++ writeSection "[ENV_TRANS]" envTrans ++
       writeSection "[SYS_INIT]" sysInit ++ writeSection "[SYS_TRANS]" sysTrans) ds)))).

(** ** The test *)

(** What is printed: + or -, or a message before the exception that ends the program. *)
Inductive fuzzReport : Type :=
| Plus | Minus
| SlugsFailed                   (* lines 101-103 *)
| NoResult                      (* lines 117-119 *)
| TranslationFailed             (* lines 125-151 *)
| AisySaysRealizable            (* lines 161-163: "Aisy sais realizable, Slugs disagrees!" *)
| AisySaysUnrealizable          (* lines 168-170: "Aisy sais unrealizable, Slugs disagrees!" *)
| AisyFailed.                   (* lines 173-176 *)

(** Lines 108-115. *)
Definition monolithicResult (lines : list string) : option bool :=
  fold_left (fun r l =>
    if String.eqb (trim l) "RESULT: Specification is unrealizable." then Some false
    else if String.eqb (trim l) "RESULT: Specification is realizable." then Some true
    else r) lines None.

Section TEST.
  Variable slugs : string -> list string * Z.
  (** [None]: aigtoaig or abc fails. *)
  Variable aisy : list string -> option Z.

  (** Lines 97-176. *)
  Definition fuzzTest (content : string) : fuzzReport :=
    let '(lines, code) := slugs content in
    if negb (code =? 0)%Z then SlugsFailed
    else match monolithicResult lines with
         | None => NoResult
         | Some result =>
             match aigMain content with
             | TOk aag =>
                 match aisy aag with
                 | None => TranslationFailed
                 | Some code =>
                     if (code =? 10)%Z then if result then Plus else AisySaysRealizable
                     else if (code =? 20)%Z then if result then AisySaysUnrealizable else Minus
                     else AisyFailed
                 end
             | _ => TranslationFailed
             end
         end.

  (** fuzzOnce, lines 42-176. *)
  Definition fuzzOnce (n : nat) (ds : list nat) : gres fuzzReport :=
    gbind (specification n ds) (fun content ds => GOk (fuzzTest content) ds).
End TEST.
