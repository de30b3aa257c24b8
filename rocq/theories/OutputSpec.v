(** * Specification side: text formats of printed strategies

    JSON after RFC 8259 (restricted to natural numbers and strings without escape
    sequences, which only makes the grammar smaller), and the plain text format
    (/repo/README.md, "explicit-state strategy").  Independent of the model of the
    code. *)

From Coq Require Import String Ascii List Bool Arith NArith.
From Verif Require Import FormulaSpec FileSpec Spec AutSpec.
Import ListNotations.
Open Scope string_scope.

(** ** Numbers: decimal digits without leading zeros *)
Definition number (n : nat) (w : string) : Prop :=
  numeral w (N.of_nat n) /\ (forall w', w = String "0" w' -> w' = "").

(** ** JSON *)
Inductive json : Type :=
| JNum (n : nat)
| JStr (s : string)
| JArr (l : list json)
| JObj (l : list (string * json)).

Definition jsonWs (a : ascii) : bool :=
  let n := nat_of_ascii a in (n =? 32)%nat || (n =? 9)%nat || (n =? 10)%nat || (n =? 13)%nat.
Fixpoint blank (s : string) : bool :=
  match s with EmptyString => true | String a s => jsonWs a && blank s end.

(** Characters that may occur unescaped in a JSON string. *)
Definition plainChar (a : ascii) : bool :=
  let n := nat_of_ascii a in (32 <=? n)%nat && negb (n =? 34)%nat && negb (n =? 92)%nat.
Fixpoint plainString (s : string) : bool :=
  match s with EmptyString => true | String a s => plainChar a && plainString s end.

Definition dq : string := String "034" "".
Definition jsonString (s t : string) : Prop := plainString s = true /\ t = dq ++ s ++ dq.

Inductive jsonText : json -> string -> Prop :=
| jt_num n w : number n w -> jsonText (JNum n) w
| jt_str s t : jsonString s t -> jsonText (JStr s) t
| jt_arr0 b : blank b = true -> jsonText (JArr []) ("[" ++ b ++ "]")
| jt_arr l t : jsonElems l t -> jsonText (JArr l) ("[" ++ t ++ "]")
| jt_obj0 b : blank b = true -> jsonText (JObj []) ("{" ++ b ++ "}")
| jt_obj l t : jsonMembers l t -> NoDup (map fst l) -> jsonText (JObj l) ("{" ++ t ++ "}")
with jsonElems : list json -> string -> Prop :=
| je_one v b t b' : blank b = true -> jsonText v t -> blank b' = true ->
    jsonElems [v] (b ++ t ++ b')
| je_more v l b t b' t' : blank b = true -> jsonText v t -> blank b' = true -> jsonElems l t' ->
    jsonElems (v :: l) (b ++ t ++ b' ++ "," ++ t')
with jsonMembers : list (string * json) -> string -> Prop :=
| jm_one k v b tk b1 b2 t b' : blank b = true -> jsonString k tk -> blank b1 = true -> blank b2 = true ->
    jsonText v t -> blank b' = true ->
    jsonMembers [(k, v)] (b ++ tk ++ b1 ++ ":" ++ b2 ++ t ++ b')
| jm_more k v l b tk b1 b2 t b' t' : blank b = true -> jsonString k tk -> blank b1 = true -> blank b2 = true ->
    jsonText v t -> blank b' = true -> jsonMembers l t' ->
    jsonMembers ((k, v) :: l) (b ++ tk ++ b1 ++ ":" ++ b2 ++ t ++ b' ++ "," ++ t').

Definition jsonDocument (v : json) (text : string) : Prop :=
  exists b t b', blank b = true /\ jsonText v t /\ blank b' = true /\ text = b ++ t ++ b'.

(** The JSON object that represents a strategy automaton. *)
Definition jsonBit (b : bool) : json := JNum (if b then 1 else 0).
Definition jsonNodeOf (v : node) : json :=
  JObj [("rank", JNum (n_rank v)); ("state", JArr (map jsonBit (n_vals v)));
        ("trans", JArr (map JNum (n_succ v)))].
Definition jsonAutomaton (names : list string) (A : list node) (doc : json) : Prop :=
  exists keys, Forall2 (fun v k => number (n_num v) k) A keys /\
    doc = JObj [("version", JNum 0); ("slugs", JStr "0.0.1"); ("variables", JArr (map JStr names));
                ("nodes", JObj (combine keys (map jsonNodeOf A)))].

(** ** Plain text: two lines per state *)
Inductive separated : list string -> string -> Prop :=
| sep_nil : separated [] ""
| sep_one s : separated [s] s
| sep_more s s' l t : separated (s' :: l) t -> separated (s :: s' :: l) (s ++ ", " ++ t).

Definition stateLine (names : list string) (v : node) (l : string) : Prop :=
  exists n r vs, number (n_num v) n /\ number (n_rank v) r /\
    separated (map (fun p => fst p ++ ":" ++ (if snd p : bool then "1" else "0")) (combine names (n_vals v))) vs /\
    l = "State " ++ n ++ " with rank " ++ r ++ " -> <" ++ vs ++ ">".
Definition succLine (v : node) (l : string) : Prop :=
  exists ns t, Forall2 number (n_succ v) ns /\ separated ns t /\
    l = String "009" ("With successors : " ++ t).

Inductive textLines (names : list string) : list node -> list string -> Prop :=
| tl_nil : textLines names [] []
| tl_cons v A l1 l2 ls : stateLine names v l1 -> succLine v l2 -> textLines names A ls ->
    textLines names (v :: A) (l1 :: l2 :: ls).

(** ** Plain text of permissive strategies: a line with the number and the goal
    number, a line with the values, one line for each successor, and an empty line *)
Definition permHead (v : node) (l : string) : Prop :=
  exists n r, number (n_num v) n /\ number (n_rank v) r /\ l = "State " ++ n ++ " with rank " ++ r.
Definition permVals (names : list string) (v : node) (l : string) : Prop :=
  separated (map (fun p => fst p ++ ":" ++ (if snd p : bool then "1" else "0")) (combine names (n_vals v))) l.
Inductive permLines (names : list string) : list node -> list string -> Prop :=
| pl_nil : permLines names [] []
| pl_cons v A l1 l2 ns ls : permHead v l1 -> permVals names v l2 -> Forall2 number (n_succ v) ns ->
    permLines names A ls -> permLines names (v :: A) (l1 :: l2 :: (ns ++ "" :: ls)%list).
