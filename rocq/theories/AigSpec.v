(** * Specification side: circuits in the ASCII AIGER format, and safety synthesis for them

    Independent of the model of the code.  Follows the AIGER format (Biere: The AIGER
    And-Inverter Graph (AIG) Format) and its use in the synthesis competition, where the inputs
    whose names begin with "controllable_" are chosen by the system. *)

From Coq Require Import String Ascii List Bool Arith NArith Permutation.
From Verif Require Import Spec FormulaSpec FileSpec.
Import ListNotations.
Local Open Scope string_scope.

(** A circuit consists of literals: 2*v is variable v, 2*v+1 its negation, 0 and 1 are constants. *)
Record aig : Type := mkAig {
  a_inputs : list nat;
  a_latches : list (nat * nat);          (** latch and the literal for its next value *)
  a_outputs : list nat;
  a_ands : list (nat * nat * nat)        (** gate and the two literals it is the AND of *)
}.

(** ** Text *)

(** A line with the given numbers. *)
Definition numbers (line : string) (ns : list nat) : Prop :=
  Forall2 (fun w n => numeral w (N.of_nat n)) (words line) ns.

(** The lines of a file describe circuit [A], with maximal variable index [M] in the header; the
    inputs have the names [names]. *)
Definition aag_text (M : nat) (A : aig) (names : list string) (lines : list string) : Prop :=
  exists hdr li ll lo la sym rest,
    lines = (hdr :: li ++ ll ++ lo ++ la ++ sym ++ rest)%list /\
    (exists nums, hdr = "aag " ++ nums /\
       numbers nums [M; List.length (a_inputs A); List.length (a_latches A); List.length (a_outputs A); List.length (a_ands A)]) /\
    Forall2 (fun line l => numbers line [l]) li (a_inputs A) /\
    Forall2 (fun line l => numbers line [fst l; snd l]) ll (a_latches A) /\
    Forall2 (fun line l => numbers line [l]) lo (a_outputs A) /\
    Forall2 (fun line l => numbers line [fst (fst l); snd (fst l); snd l]) la (a_ands A) /\
    List.length names = List.length (a_inputs A) /\
    Forall2 (fun line p => exists w, numeral w (N.of_nat (fst p)) /\ line = "i" ++ w ++ " " ++ snd p)
            sym (combine (seq 0 (List.length names)) names).

(** ** Well-formed circuits *)

(** The gates can be evaluated in the given order: every gate uses only variables that are known,
    and defines another one. *)
Fixpoint ordered (known : list nat) (gates : list (nat * nat * nat)) : Prop :=
  match gates with
  | [] => True
  | (a, b, c) :: gates =>
      Nat.even a = true /\ ~ In (Nat.div2 a) known /\
      In (Nat.div2 b) known /\ In (Nat.div2 c) known /\
      ordered (Nat.div2 a :: known) gates
  end.

(** Variable 0 is the constant; inputs and latches are variables of their own, the gates have an
    order of evaluation, and nothing else is used.  Variables are at most [M]. *)
Definition base_vars (A : aig) : list nat := 0 :: map Nat.div2 (a_inputs A ++ map fst (a_latches A)).
Definition all_vars (A : aig) : list nat := (base_vars A ++ map (fun g => Nat.div2 (fst (fst g))) (a_ands A))%list.
Definition well_formed (M : nat) (A : aig) : Prop :=
  Forall (fun l => Nat.even l = true) (a_inputs A ++ map fst (a_latches A)) /\
  NoDup (base_vars A) /\
  (exists gs, Permutation gs (a_ands A) /\ ordered (base_vars A) gs) /\
  Forall (fun l => In (Nat.div2 l) (all_vars A)) (map snd (a_latches A) ++ a_outputs A) /\
  Forall (fun v => v <= M) (all_vars A).

(** ** Behaviour *)

(** Value of a literal when the variables have the given values. *)
Definition lit (e : nat -> bool) (l : nat) : bool :=
  xorb (Nat.odd l) (match Nat.div2 l with O => false | v => e v end).

(** Values of the variables over time: latches are false at first, and gates compute the AND. *)
Definition is_run (A : aig) (r : nat -> nat -> bool) : Prop :=
  (forall l n, In (l, n) (a_latches A) -> lit (r 0) l = false /\ forall t, lit (r (S t)) l = lit (r t) n) /\
  (forall t a b c, In (a, b, c) (a_ands A) -> lit (r t) a = lit (r t) b && lit (r t) c).

(** Input number j has value [x t j] at time t. *)
Definition with_inputs (A : aig) (r : nat -> nat -> bool) (x : nat -> nat -> bool) : Prop :=
  forall t j l, nth_error (a_inputs A) j = Some l -> lit (r t) l = x t j.

(** ** Synthesis *)

Definition controllable (names : list string) (j : nat) : bool := prefix "controllable_" (nth j names "").
(** The choices of the environment and of a strategy for the controllable inputs, as in Spec.v. *)
Definition input_game (names : list string) : game :=
  mkGame (controllable names) (fun _ => true) (fun _ => true) (fun _ _ => true) (fun _ _ => true) [] [].

(** For some strategy for the controllable inputs, the outputs never become true; for every
    strategy there is a choice of the other inputs for which they do not remain false. *)
Definition never_raised (A : aig) (r : nat -> nat -> bool) : Prop :=
  forall t o, In o (a_outputs A) -> lit (r t) o = false.
Definition aig_realizable (A : aig) (names : list string) : Prop :=
  exists f : strategy, forall x r, is_run A r -> with_inputs A r (play (input_game names) f x) -> never_raised A r.
Definition aig_unrealizable (A : aig) (names : list string) : Prop :=
  forall f : strategy, exists x r, is_run A r /\ with_inputs A r (play (input_game names) f x) /\ ~ never_raised A r.

(** ** Violation of safety specifications *)

(** The guarantees are violated at time t, and no assumption has been violated up to then. *)
Definition violated_at (g : game) (pi : nat -> state) (t : nat) : Prop :=
  g_initE g (pi 0) = true /\
  match t with
  | O => g_initS g (pi 0) = false
  | S t => (forall m, m <= t -> g_safeE g (pi m) (pi (S m)) = true) /\ g_safeS g (pi t) (pi (S t)) = false
  end.

(** ** Circuits for specifications *)

(** Inputs of a circuit for a specification: first those of section [INPUT], then those of section
    [OUTPUT], which are controllable. *)
Definition input_names (L : items) : list string :=
  (linesOf SInput L ++ map (append "controllable_") (linesOf SOutput L))%list.
(** A run shows a sequence of states if the input for every variable has its values. *)
Definition shows (L : items) (A : aig) (r : nat -> nat -> bool) (pi : nat -> state) : Prop :=
  forall t j k w l, nth_error (linesOf SInput L ++ linesOf SOutput L) j = Some w ->
    nth_error (declared L) (2 * k) = Some w -> nth_error (a_inputs A) j = Some l -> lit (r t) l = pi t k.

(** Safety specifications; lines in which words are separated by single blanks. *)
Definition safety_only (L : items) : Prop := linesOf SEnvLive L = [] /\ linesOf SSysLive L = [].
Definition single_blanks (L : items) : Prop :=
  forall s line, formulaSection s = true -> In (s, line) L -> String.concat " " (words line) = line.
