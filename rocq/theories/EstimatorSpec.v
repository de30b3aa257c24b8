(** * Specification side: estimators for partially observable domains

    Independent of the model of the code.  A domain has variables that can be seen, variables that
    cannot be seen, and estimates, which are set by an estimator from what can be seen. *)

From Coq Require Import String Ascii ZArith Arith List Bool.
From Verif Require Import FormulaSpec FileSpec OutputSpec Spec.
Import ListNotations.
Local Open Scope string_scope.

Inductive kind : Set := Observable | Controllable | Unobservable | Estimate.

Record domain : Type := mkDomain {
  d_kind : nat -> kind;
  (** Estimates that should be true ([Some true]) or false ([Some false]) whenever possible. *)
  d_wish : nat -> option bool;
  (** The initial states, the steps that the domain can take, the steps in which the estimates are
      correct. *)
  d_init : state -> bool;
  d_env : state -> state -> bool;
  d_sys : state -> state -> bool
}.

Section DOMAIN.
  Variable D : domain.

  (** The states on finite paths from initial states with steps in [R]. *)
  Inductive visits (R : state -> state -> Prop) : state -> Prop :=
  | visits_init s : d_init D s = true -> visits R s
  | visits_step s t : visits R s -> R s t -> visits R t.

  (** States that cannot be distinguished. *)
  Definition looks_same (s s' : state) : Prop := forall k, d_kind D k <> Unobservable -> s' k = s k.
  (** States that differ in the estimates only. *)
  Definition same_but_estimates (t t' : state) : Prop := forall k, d_kind D k <> Estimate -> t' k = t k.
  (** States with the same values of those observable variables that cannot be controlled. *)
  Definition same_observation (t t' : state) : Prop := forall k, d_kind D k = Observable -> t' k = t k.

  (** A step is correct in whatever state the domain may be, if it has always taken correct steps. *)
  Definition safe_update (s t : state) : Prop :=
    forall s' t', looks_same s s' -> looks_same t t' ->
      visits (fun s t => d_env D s t = true /\ d_sys D s t = true) s' ->
      d_env D s' t' = true -> d_sys D s' t' = true.

  (** The wishes are fulfilled better in [t'] than in [t]: the last wish with different outcomes is
      fulfilled in [t']. *)
  Definition better (t' t : state) : Prop :=
    exists k b, d_kind D k = Estimate /\ d_wish D k = Some b /\ t' k = b /\ t k = negb b /\
      forall j b', k < j -> d_kind D j = Estimate -> d_wish D j = Some b' -> t' j = t j.
  Definition best_update (s t : state) : Prop :=
    safe_update s t /\ forall t', same_but_estimates t t' -> safe_update s t' -> ~ better t' t.

  (** An estimator that only makes updates in [B] runs in the domain for [n] steps. *)
  Definition runs_with (B : state -> state -> Prop) (pi : nat -> state) (n : nat) : Prop :=
    d_init D (pi 0) = true /\ forall i, i < n -> d_env D (pi i) (pi (S i)) = true /\ B (pi i) (pi (S i)).

  (** The step from [s] to [t] looks like one that the domain can take when an estimator makes updates
      in [B]. *)
  Definition looks_possible (B : state -> state -> Prop) (s t : state) : Prop :=
    exists s' t', looks_same s s' /\ same_observation t t' /\
      visits (fun s t => d_env D s t = true /\ B s t) s' /\ d_env D s' t' = true.

  (** [B] tells updates by what can be seen, and all steps with such updates are correct. *)
  Definition estimator (B : state -> state -> Prop) : Prop :=
    (forall s t s' t', looks_same s s' -> looks_same t t' -> B s t -> B s' t') /\
    forall pi n, runs_with B pi (S n) -> d_sys D (pi n) (pi (S n)) = true.
End DOMAIN.

(** ** Numbers *)

(** The number that is encoded by the variables [bits], lowest bit first. *)
Fixpoint bits_value (bits : list nat) (e : nat -> bool) : Z :=
  match bits with
  | [] => 0
  | v :: bits => (if e v then 1 else 0) + 2 * bits_value bits e
  end%Z.

(** [lo, hi] is the range of the differences [y - x] for the pairs (x, y) in [P]; if there are none,
    [lo] and [hi] are the greatest and the least value of the integer type. *)
Definition range_of (P : Z -> Z -> Prop) (lo hi : Z) : Prop :=
  (forall x y, P x y -> lo <= y - x <= hi)%Z /\
  ((exists x y, P x y) -> (exists x y, P x y /\ y - x = lo)%Z /\ (exists x y, P x y /\ y - x = hi)%Z) /\
  ((forall x y, ~ P x y) -> lo = 2147483647%Z /\ hi = (-2147483648)%Z).

Definition occurs (a : ascii) (s : string) : Prop := In a (list_ascii_of_string s).
Definition prime (primed : bool) : string := if primed then "'" else "".

(** The lowest bit of a number p with values from [lo] to [hi] is called p@0.lo.hi, the other ones p@1, p@2, and
    so on; there is a prime after the names of the next values.  Variable [i] is the lowest bit and [bits] are the
    other ones. *)
Definition is_number (names : list string) (i : nat) (p : string) (lo hi : N) (primed : bool) (bits : list nat) : Prop :=
  ~ occurs "@" p /\
  (exists wl wh, numeral wl lo /\ numeral wh hi /\
     nth_error names i = Some (p ++ "@0." ++ wl ++ "." ++ wh ++ prime primed)) /\
  length bits = pred (N.to_nat (N.size (hi - lo))) /\
  forall j v, nth_error bits j = Some v -> exists w, number (S j) w /\ nth_error names v = Some (p ++ "@" ++ w ++ prime primed).
(** The value of that number. *)
Definition number_is (i : nat) (lo hi : N) (bits : list nat) (e : nat -> bool) (x : Z) : Prop :=
  x = (Z.of_N lo + bits_value (i :: bits) e)%Z /\ (x <= Z.of_N hi)%Z.

(** The names with a dot are those of lowest bits. *)
Definition hasDot (s : string) : bool := existsb (Ascii.eqb ".") (list_ascii_of_string s).
Definition well_numbered (names : list string) : Prop := forall i name, nth_error names i = Some name -> hasDot name = true ->
  exists p lo hi bits, is_number names i p lo hi (Nat.odd i) bits /\ (lo < 2147483648)%N /\ (hi < 2147483648)%N.
(** The pairs of a number and the next value of another number that is an estimate. *)
Definition next_estimate (D : domain) (i : nat) : bool :=
  Nat.odd i && match d_kind D (Nat.div2 i) with Estimate => true | _ => false end.
Definition dotted (names : list string) : list nat := filter (fun i => hasDot (nth i names "")) (seq 0 (length names)).
Definition range_pairs (D : domain) (names : list string) : list (nat * nat) :=
  flat_map (fun r => map (pair r) (filter (fun s => negb (Nat.eqb s r) && next_estimate D s) (dotted names))) (dotted names).
(** [lo, hi] is the range of the differences between the next value of the estimate [sim] with the name
    [simName] and the number [ref] with the name [refName] in the steps with updates in [B]. *)
Definition range_line (D : domain) (B : state -> state -> Prop) (names : list string) (ref sim : nat)
    (simName refName : string) (primed : bool) (lo hi : Z) : Prop :=
  exists rlo rhi rbits slo shi sbits,
    is_number names ref refName rlo rhi primed rbits /\ is_number names sim simName slo shi true sbits /\ primed = Nat.odd ref /\
    range_of (fun x y => exists s t, visits D (fun s t => d_env D s t = true /\ B s t) s /\ d_env D s t = true /\ B s t /\
      number_is ref rlo rhi rbits (valuation s t) x /\ number_is sim slo shi sbits (valuation s t) y) lo hi.

(** ** Files *)

(** In the file for an estimator, there are sections for three kinds of inputs; everything else is as in a
    slugsin file. *)
Definition inputHeaders : list string := ["[OBSERVABLE_INPUT]"; "[UNOBSERVABLE_INPUT]"; "[CONTROLLABLE_INPUT]"].
Definition ordinaryLine (l : string) : string :=
  if existsb (String.eqb (strip l)) inputHeaders then "[INPUT]" else l.
Definition ordinaryFile (content : string) : string :=
  String.concat "" (map (fun l => ordinaryLine l ++ String "010" "") (file_lines content)).
(** Sections of slugsin files that cannot be used. *)
Definition excludedHeaders : list string := ["[INPUT]"; "[ENV_LIVENESS]"; "[SYS_LIVENESS]"].

(** The kinds of the declared variables; [sec] is the header of the section. *)
Definition section_kind (sec : string) : option kind :=
  if String.eqb sec "[OBSERVABLE_INPUT]" then Some Observable
  else if String.eqb sec "[UNOBSERVABLE_INPUT]" then Some Unobservable
  else if String.eqb sec "[CONTROLLABLE_INPUT]" then Some Controllable
  else if String.eqb sec "[OUTPUT]" then Some Estimate
  else None.
Fixpoint file_kinds (sec : string) (lines : list string) : list kind :=
  match lines with
  | [] => []
  | l :: ls =>
      match strip l with
      | EmptyString => file_kinds sec ls
      | String a _ =>
          if (a =? "#")%char then file_kinds sec ls
          else if (a =? "[")%char then file_kinds (strip l) ls
          else match section_kind sec with Some k => k :: file_kinds sec ls | None => file_kinds sec ls end
      end
  end.
(** Names that start with "min_" are for estimates that should be true, those that start with "max_" for
    estimates that should be false. *)
Definition name_wish (name : string) : option bool :=
  if prefix "min_" name then Some true else if prefix "max_" name then Some false else None.

(** The domain that is described by a file with items [L], formulas [fs] and the given kinds. *)
Definition file_domain (L : items) (fs : section -> list fml) (kinds : list kind) : domain :=
  let g := file_game L fs in
  mkDomain (fun k => nth k kinds Observable) (fun k => name_wish (nth (2 * k) (declared L) ""))
    (fun s => g_initE g s && g_initS g s) (g_safeE g) (g_safeS g).
(** Domains that cannot be told apart. *)
Definition same_domain (D D' : domain) : Prop :=
  (forall k, d_kind D k = d_kind D' k) /\ (forall k, d_wish D k = d_wish D' k) /\
  (forall s, d_init D s = d_init D' s) /\
  (forall s t, d_env D s t = d_env D' s t) /\ (forall s t, d_sys D s t = d_sys D' s t).

(** ** Using the printed formulas *)

(** Names that can be used in formulas. *)
Definition plain_name (w : string) : Prop := words w = [w] /\ reserved w = false.
(** The first [n] variables, as far as they can be seen, are declared in another file as well: variable [k]
    is variable [r k] there, with the same name, and an input iff it is observable. *)
Definition declared_alike (D : domain) (n : nat) (names names' : list string) (out : nat -> bool) (r : nat -> nat) : Prop :=
  forall k, k < n -> d_kind D k <> Unobservable ->
    (exists w, plain_name w /\ nth_error names (2 * k) = Some w /\ nth_error names' (2 * r k) = Some w) /\
    (exists w, plain_name w /\ nth_error names (2 * k + 1) = Some w /\ nth_error names' (2 * r k + 1) = Some w) /\
    (out (r k) = false <-> d_kind D k = Observable).
