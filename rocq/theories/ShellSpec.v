(** * Specification side: what is typed into the interactive shell *)

From Coq Require Import String Ascii NArith Arith List Bool.
From Verif Require Import Spec VarTypes Sem AutSpec.
Import ListNotations.

(** The declared variables, inputs first. *)
Definition inputVars (c : ctx) : list nat := filter (fun k => negb (isOut c k)) (seq 0 (nvars c)).
Definition outputVars (c : ctx) : list nat := filter (isOut c) (seq 0 (nvars c)).
Definition shellVars (c : ctx) : list nat := inputVars c ++ outputVars c.
(** The values of a position in this order. *)
Definition valuesOf (c : ctx) (s : state) : list bool := map s (shellVars c).

(** Text. *)
Local Open Scope string_scope.
Definition newline : string := String "010" "".
Fixpoint bitsText (l : list bool) : string :=
  match l with [] => "" | b :: l => String (if b then "1" else "0")%char (bitsText l) end.
Fixpoint joinText (l : list string) : string :=
  match l with [] => "" | a :: l => a ++ joinText l end.

(** XGETINIT, and then one transition for each of the first n inputs [x 0], [x 1], ...; the
    k-th one is chosen at random if [r k]. *)
Definition transText (c : ctx) (random : bool) (x : state) : string :=
  (if random then "XMAKETRANSRANDOM" else "XMAKETRANS") ++ newline ++ bitsText (map x (inputVars c)) ++ newline.
Definition runText (c : ctx) (r : nat -> bool) (x : nat -> state) (n : nat) : string :=
  joinText (("XGETINIT" ++ newline) :: map (fun k => transText c (r k) (x k)) (seq 0 n)).

(** ** Partial valuations and marked values (XCOMPLETEINIT, XSTRATEGYTRANSITION) *)
Local Open Scope list_scope.
Fixpoint charsText (l : list ascii) : string :=
  match l with [] => EmptyString | a :: l => String a (charsText l) end.
(** A character for each of the variables [vars]: 0 and 1 require a value. *)
Definition fits (vars : list nat) (p : list ascii) (s : state) : Prop :=
  Forall2 (fun k a => (a = "0"%char -> s k = false) /\ (a = "1"%char -> s k = true)) vars p.
(** A character for the value [b] of variable [k]: the first of the sets of positions in
    [levels] in which no other value is possible determines a letter, otherwise a digit is
    used. *)
Definition forces (P : state -> Prop) (k : nat) (b : bool) : Prop := forall s, P s -> s k = b.
Fixpoint markOf (levels : list (ascii * ascii * (state -> Prop))) (k : nat) (b : bool) (m : ascii) : Prop :=
  match levels with
  | [] => m = if b then "1"%char else "0"%char
  | (lower, upper, P) :: levels =>
      (forces P k b /\ m = if b then upper else lower) \/
      (~ (exists b', forces P k b') /\ markOf levels k b m)
  end.
(** A printed position. *)
Definition marked (vars : list nat) (levels : list (ascii * ascii * (state -> Prop))) (s : state) (l : list ascii) : Prop :=
  Forall2 (fun k m => markOf levels k (s k) m) vars l.

(** ** SETPOS and MOVE *)
(** Values, one per line. *)
Definition valueLine (b : bool) : string := ((if b then "1" else "0") ++ newline)%string.
Definition setText (c : ctx) (s : state) (rest : string) : string :=
  ("SETPOS" ++ newline ++ joinText (map valueLine (map s (seq 0 (nvars c)))) ++ rest)%string.
(** [goal] is the number as it is typed in. *)
Definition moveText (c : ctx) (goal : string) (x : state) (rest : string) : string :=
  ("MOVE" ++ newline ++ goal ++ newline ++ joinText (map valueLine (map x (inputVars c))) ++ rest)%string.
(** The numbers of the properties that a transition satisfies. *)
Definition satisfied (ps : list (state -> state -> bool)) (s s' : state) : list nat :=
  filter (fun i => nth i ps (fun _ _ => false) s s') (seq 0 (length ps)).

(** ** XSTRATEGYTRANSITION *)
(** A position, characters for the next values, and the numbers of an assumption and a
    guarantee. *)
Definition transitionText (c : ctx) (s : state) (p : list ascii) (a g : string) (rest : string) : string :=
  ("XSTRATEGYTRANSITION" ++ newline ++ bitsText (valuesOf c s) ++ newline ++ charsText p ++ newline ++
   a ++ newline ++ g ++ newline ++ rest)%string.
(** The numbers that are printed: the number is increased if the transition satisfies the property, unless
    it is the only one that does. *)
Definition advances (n : nat) (q : state -> state -> bool) (s t : state) : Prop :=
  q s t = true /\ exists s' t', q s' t' = true /\ ~ (same n s' s /\ same n t' t).
Definition nextNumber (n : nat) (qs : list (state -> state -> bool)) (s t : state) (i i' : nat) : Prop :=
  let q := nth i qs (fun _ _ => false) in
  (advances n q s t /\ i' = (i + 1) mod length qs) \/ (~ advances n q s t /\ i' = i).
