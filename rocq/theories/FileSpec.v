(** * Specification side: slugsin files and the game they describe

    Independent of the model of the code.  Follows the section "slugsin" of
    /repo/doc/input_formats.md. *)

From Coq Require Import String Ascii List Bool Arith NArith.
From Verif Require Import FormulaSpec Spec.
Import ListNotations.
Open Scope string_scope.

(** ** Layout of a file *)

(** The blocks between newline characters; the last block is not a line if it is
    empty. *)
Fixpoint pieces (s : string) : list string :=
  match s with
  | EmptyString => [""]
  | String a s =>
      if (a =? "010")%char then "" :: pieces s
      else match pieces s with p :: ps => String a p :: ps | [] => [] end
  end.
Definition file_lines (s : string) : list string :=
  if String.eqb (last (pieces s) "") "" then removelast (pieces s) else pieces s.

(** A line without white space at its ends. *)
Fixpoint dropWs (l : list ascii) : list ascii :=
  match l with [] => [] | a :: l' => if isWs a then dropWs l' else l end.
Definition strip (s : string) : string :=
  string_of_list_ascii (rev (dropWs (rev (dropWs (list_ascii_of_string s))))).

Inductive section : Set :=
| SInput | SOutput | SEnvInit | SSysInit | SEnvTrans | SSysTrans | SEnvLive | SSysLive.

Definition sec_eqb (a b : section) : bool :=
  match a, b with
  | SInput, SInput | SOutput, SOutput | SEnvInit, SEnvInit | SSysInit, SSysInit
  | SEnvTrans, SEnvTrans | SSysTrans, SSysTrans | SEnvLive, SEnvLive | SSysLive, SSysLive => true
  | _, _ => false
  end.

Definition header (s : section) : string :=
  match s with
  | SInput => "[INPUT]" | SOutput => "[OUTPUT]"
  | SEnvInit => "[ENV_INIT]" | SSysInit => "[SYS_INIT]"
  | SEnvTrans => "[ENV_TRANS]" | SSysTrans => "[SYS_TRANS]"
  | SEnvLive => "[ENV_LIVENESS]" | SSysLive => "[SYS_LIVENESS]"
  end.

Definition sections : list section :=
  [SInput; SOutput; SEnvInit; SSysInit; SEnvTrans; SSysTrans; SEnvLive; SSysLive].

(** The sections that contain formulas. *)
Definition formulaSection (s : section) : bool :=
  match s with SInput | SOutput => false | _ => true end.

(** The content of a file: its lines with their sections, without blank lines,
    comments and section headers.  [None]: there is an unknown header or content
    before the first header. *)
Definition items := list (section * string).

Fixpoint layout (cur : option section) (lines : list string) : option items :=
  match lines with
  | [] => Some []
  | l :: ls =>
      match strip l with
      | EmptyString => layout cur ls
      | String a _ =>
          if (a =? "#")%char then layout cur ls
          else if (a =? "[")%char then
            match find (fun s => String.eqb (header s) (strip l)) sections with
            | Some s => layout (Some s) ls
            | None => None
            end
          else match cur, layout cur ls with
               | Some s, Some L => Some ((s, strip l) :: L)
               | _, _ => None
               end
      end
  end.

(** The declared names; every declaration of a variable yields its name and the
    name of its next value. *)
Definition declared (L : items) : list string :=
  flat_map (fun p => match fst p with
                     | SInput | SOutput => [snd p; (snd p ++ "'")%string]
                     | _ => []
                     end) L.
(** For every declared variable whether it is an output. *)
Definition outputs (L : items) : list bool :=
  flat_map (fun p => match fst p with SInput => [false] | SOutput => [true] | _ => [] end) L.
(** The lines of a section. *)
Definition linesOf (s : section) (L : items) : list string :=
  map snd (filter (fun p => sec_eqb (fst p) s) L).

(** ** Formulas in a file *)

(** The variables that may occur in a section: [out] tells if the variable is an
    output and [next] if the next value is meant. *)
Definition may_use (s : section) (out next : bool) : bool :=
  match s with
  | SEnvInit => negb out && negb next
  | SSysInit => negb next
  | SEnvTrans => negb (out && next)
  | SSysTrans | SEnvLive | SSysLive => true
  | SInput | SOutput => false
  end.

(** Word [w] names the i-th declared name, which may be used in section [s]. *)
Definition file_var (L : items) (s : section) (w : string) (i : nat) : Prop :=
  nth_error (declared L) i = Some w /\
  may_use s (nth (Nat.div2 i) (outputs L) false) (Nat.odd i) = true.

(** The numbers in formulas are at most 2^32-1. *)
Definition maxNumber : N := 4294967296.

(** [fs] are the formulas in the sections of the file, with the declarations of
    [L].  With [loose] set, formulas may recall buffer elements that are not
    computed yet, which the documentation does not allow. *)
Definition formulas_of (loose : bool) (L : items) (fs : section -> list fml) : Prop :=
  forall s, formulaSection s = true ->
    Forall2 (fun line f => gram (file_var L s) maxNumber loose 0 f (words line)) (linesOf s L) (fs s).

(** In every formula line of the file, the operators "$" and "?" are followed by a
    word that consists of digits, if by any. *)
Definition plain_words (ws : list string) : Prop :=
  forall p op w q, ws = (p ++ op :: w :: q)%list -> op = "$" \/ op = "?" ->
    w <> "" /\ allDigits w = true.
Definition plain_file (L : items) : Prop :=
  forall s line, formulaSection s = true -> In (s, line) L -> plain_words (words line).

(** Variable names are declared before they are used, and every formula line is
    a formula. *)
Definition grammatical (L : items) : Prop :=
  forall L1 s line L2, L = (L1 ++ (s, line) :: L2)%list -> formulaSection s = true ->
    exists f, gram (file_var L1 s) maxNumber false 0 f (words line).

(** ** The game *)

(** A formula holds on a transition. *)
Definition holds (f : fml) (e : nat -> bool) : bool :=
  match den e [] f with Some b => b | None => false end.

(** The i-th name denotes variable i/2, and its next value if i is odd. *)
Definition valuation (s t : state) : nat -> bool :=
  fun i => if Nat.even i then s (Nat.div2 i) else t (Nat.div2 i).

Definition file_game (L : items) (fs : section -> list fml) : game :=
  let onState s st := forallb (fun f => holds f (valuation st st)) (fs s) in
  let onTrans s st st' := forallb (fun f => holds f (valuation st st')) (fs s) in
  let each s := map (fun f st st' => holds f (valuation st st')) (fs s) in
  mkGame (fun k => nth k (outputs L) false)
    (onState SEnvInit) (onState SSysInit) (onTrans SEnvTrans) (onTrans SSysTrans)
    (each SEnvLive) (each SSysLive).
