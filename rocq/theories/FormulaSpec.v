(** * Specification side: the slugsin formula grammar and its meaning

    Independent of the model of the code.  Follows the section "slugsin" of
    /repo/doc/input_formats.md. *)

From Coq Require Import String Ascii List Bool Arith NArith.
Import ListNotations.
Open Scope string_scope.

(** White space characters: blank, tab, newline, vertical tab, form feed, carriage return. *)
Definition isWs (a : ascii) : bool :=
  let n := nat_of_ascii a in (n =? 32)%nat || ((9 <=? n)%nat && (n <=? 13)%nat).

(** The words of a line: the maximal blocks without white space. *)
Fixpoint words (s : string) : list string :=
  match s with
  | EmptyString => []
  | String a s' =>
      if isWs a then words s'
      else match s' with
           | EmptyString => [String a ""]
           | String b _ =>
               if isWs b then String a "" :: words s'
               else match words s' with
                    | w :: ws => String a w :: ws
                    | [] => [String a ""]
                    end
           end
  end.

Definition isDigit (a : ascii) : bool :=
  let n := nat_of_ascii a in (48 <=? n)%nat && (n <=? 57)%nat.
Definition digitVal (a : ascii) : N := N.of_nat (nat_of_ascii a - 48).

Fixpoint allDigits (w : string) : bool :=
  match w with EmptyString => true | String a w => isDigit a && allDigits w end.
Fixpoint decimal (acc : N) (w : string) : N :=
  match w with EmptyString => acc | String a w => decimal (10 * acc + digitVal a) w end.

(** INT: a non-empty sequence of digits. *)
Definition numeral (w : string) (n : N) : Prop :=
  w <> "" /\ allDigits w = true /\ decimal 0 w = n.

(** Formulas.  [FVar i] refers to the i-th name, where the names of the variables
    and of their next values alternate. *)
Inductive fml : Type :=
| FTrue
| FFalse
| FVar (i : nat)
| FNot (f : fml)
| FAnd (f g : fml)
| FOr (f g : fml)
| FXor (f g : fml)
| FBuf (fs : list fml)
| FRecall (k : nat).

(** The words with a fixed meaning. *)
Definition reserved (w : string) : bool :=
  existsb (String.eqb w) ["|"; "^"; "&"; "!"; "1"; "0"; "$"; "?"].

Section GRAMMAR.
  (** [var w i]: the word w names variable i, which may be used here. *)
  Variable var : string -> nat -> Prop.
  (** The greatest number plus one that fits the integer type. *)
  Variable bound : N.
  (** If [loose] is set, a formula may recall every element of the innermost
      buffer, otherwise only the preceding ones. *)
  Variable loose : bool.

  (** [gram m f ws]: the words [ws] are the formula [f], in which the elements
      with a number less than [m] can be recalled.
      [gramL n i fs ws]: the words [ws] are the formulas [fs], which are elements
      i, i+1, ... of a buffer of n elements. *)
  Inductive gram : nat -> fml -> list string -> Prop :=
  | g_true m : gram m FTrue ["1"]
  | g_false m : gram m FFalse ["0"]
  | g_var m w i : reserved w = false -> var w i -> gram m (FVar i) [w]
  | g_not m f ws : gram m f ws -> gram m (FNot f) ("!" :: ws)
  | g_and m f g ws vs : gram m f ws -> gram m g vs -> gram m (FAnd f g) ("&" :: ws ++ vs)%list
  | g_or m f g ws vs : gram m f ws -> gram m g vs -> gram m (FOr f g) ("|" :: ws ++ vs)%list
  | g_xor m f g ws vs : gram m f ws -> gram m g vs -> gram m (FXor f g) ("^" :: ws ++ vs)%list
  | g_buf m w n fs ws : numeral w (N.of_nat n) -> (N.of_nat n < bound)%N -> length fs = n -> n <> 0 ->
      gramL n 0 fs ws -> gram m (FBuf fs) ("$" :: w :: ws)
  | g_recall m w k : numeral w (N.of_nat k) -> (N.of_nat k < bound)%N -> k < m ->
      gram m (FRecall k) ["?"; w]
  with gramL : nat -> nat -> list fml -> list string -> Prop :=
  | gl_nil n i : gramL n i [] []
  | gl_cons n i f fs ws vs : gram (if loose then n else i) f ws -> gramL n (S i) fs vs ->
      gramL n i (f :: fs) (ws ++ vs)%list.
End GRAMMAR.

(** Value of a formula under a valuation of the variables; [mem] contains the
    values of the elements computed so far for the innermost buffer.  [None]: the
    formula has no value, as an element is recalled that has none. *)
Definition lift1 (f : bool -> bool) (x : option bool) : option bool :=
  match x with Some a => Some (f a) | None => None end.
Definition lift2 (f : bool -> bool -> bool) (x y : option bool) : option bool :=
  match x, y with Some a, Some b => Some (f a b) | _, _ => None end.

Fixpoint den (e : nat -> bool) (mem : list (option bool)) (f : fml) : option bool :=
  match f with
  | FTrue => Some true
  | FFalse => Some false
  | FVar i => Some (e i)
  | FNot f => lift1 negb (den e mem f)
  | FAnd f g => lift2 andb (den e mem f) (den e mem g)
  | FOr f g => lift2 orb (den e mem f) (den e mem g)
  | FXor f g => lift2 xorb (den e mem f) (den e mem g)
  | FBuf fs =>
      (fix go (fs : list fml) (m : list (option bool)) (last : option bool) : option bool :=
         match fs with
         | [] => last
         | f :: fs => let v := den e m f in go fs (m ++ [v])%list v
         end) fs [] None
  | FRecall k => match nth_error mem k with Some v => v | None => None end
  end.

Fixpoint denL (e : nat -> bool) (fs : list fml) (m : list (option bool)) (last : option bool) : option bool :=
  match fs with
  | [] => last
  | f :: fs => let v := den e m f in denL e fs (m ++ [v])%list v
  end.

Lemma den_buf e mem fs : den e mem (FBuf fs) = denL e fs [] None.
Proof.
  assert (H : forall fs m last,
    (fix go (fs : list fml) (m : list (option bool)) (last : option bool) : option bool :=
         match fs with
         | [] => last
         | f :: fs => let v := den e m f in go fs (m ++ [v])%list v
         end) fs m last = denL e fs m last).
  { clear. induction fs as [|f fs IH]; intros m last; [reflexivity|]. apply IH. }
  apply H.
Qed.
