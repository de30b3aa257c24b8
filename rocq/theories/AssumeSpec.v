(** * Specification: games with other assumptions, names of assumptions *)

From Coq Require Import String Ascii DecimalString Arith List Bool.
From Verif Require Import Spec FileSpec Assume.
Import ListNotations.
Local Open Scope list_scope.

(** A list without the element at index [i]. *)
Definition drop {A} (i : nat) (l : list A) : list A := firstn i l ++ skipn (S i) l.

(** The game in which the environment has to satisfy the safety assumptions [safe] and
    the liveness assumptions [live] instead. *)
Definition with_assumptions (g : game) (safe live : list (state -> state -> bool)) : game :=
  mkGame (g_out g) (g_initE g) (g_initS g) (fun s t => forallb (fun p => p s t) safe) (g_safeS g) live (g_liveG g).

(** The content lines of a file with their names: a comment that starts with two hash
    signs names the next content line.  The last one before the line counts. *)
Fixpoint annotated (cur : option section) (name : string) (lines : list string) : option (list (section * string * string)) :=
  match lines with
  | [] => Some []
  | l :: ls =>
      match strip l with
      | EmptyString => annotated cur name ls
      | String a r =>
          if (a =? "#")%char then
            match r with
            | String a' r' => annotated cur (if (a' =? "#")%char then strip r' else name) ls
            | EmptyString => annotated cur name ls
            end
          else if (a =? "[")%char then
            match find (fun s => String.eqb (header s) (strip l)) sections with
            | Some s => annotated (Some s) name ls
            | None => None
            end
          else match cur, annotated cur ""%string ls with
               | Some s, Some L => Some ((s, strip l, name) :: L)
               | _, _ => None
               end
      end
  end.
(** The names in a section. *)
Definition namesOf (s : section) (L : list (section * string * string)) : list string :=
  map snd (filter (fun p => sec_eqb (fst (fst p)) s) L).
(** Assumptions without a name are numbered, starting with 1. *)
Definition numbered (prefix : string) (names : list string) : list string :=
  map (fun e => if String.eqb (snd e) "" then (prefix ++ NilEmpty.string_of_uint (Nat.to_uint (S (fst e))))%string else snd e)
      (combine (seq 0 (List.length names)) names).

(** The meaning of a report about the assumptions by which [g] and [g'] differ; [same] says that
    both leave the environment the same moves.  The type [report] lists the texts that are printed. *)
Definition means (g g' : game) (same : Prop) (r : report) : Prop :=
  match r with
  | Crucial => ~ realizable g'
  | HelpsRobotics => realizable g' /\ exists s, g_initE g s = true /\ winning g s /\ ~ winning g' s
  | MoreWinning => realizable g' /\ (exists s, winning g s /\ ~ winning g' s) /\
      forall s, g_initE g s = true -> winning g s -> winning g' s
  | Redundant => realizable g' /\ (forall s, winning g s <-> winning g' s) /\ same
  | Easier _ | Superfluous => realizable g' /\ (forall s, winning g s <-> winning g' s) /\ ~ same
  end.

(** Starting from [s], the system can make sure that, as long as the environment satisfies its safety
    assumptions, so does the system, and either a [good] transition is taken eventually or [p] never holds. *)
Definition avoiding (g : game) (p : state -> state -> bool) (good : state -> state -> Prop) (s : state) : Prop :=
  exists X : state -> Prop, X s /\ forall s, X s -> forall x, exists y,
    g_safeE g s (merge g x y) = true ->
    g_safeS g s (merge g x y) = true /\
    (good s (merge g x y) \/ (p s (merge g x y) = false /\ X (merge g x y))).

(** The goal can be reached, ending in a winning position, with waiting for the environment to satisfy some
    liveness assumption at most [k] times. *)
Fixpoint within (g : game) (goal : state -> state -> bool) (k : nat) (s : state) : Prop :=
  match k with
  | O => False
  | S k => exists p, In p (g_liveA g) /\
      avoiding g p (fun s t => (goal s t = true /\ winning g t) \/ within g goal k t) s
  end.

(** From some position, the goal with number [j] is reached faster in [g] than in [g']. *)
Definition easier (g g' : game) (j : nat) : Prop :=
  exists goal k s, nth_error (g_liveG g) j = Some goal /\ within g goal k s /\ ~ within g' goal k s.

(** A report lists just the goals that are easier to reach with the assumption. *)
Definition lists (g g' : game) (r : report) : Prop :=
  match r with
  | Easier l => l <> [] /\ NoDup (map fst l) /\ forall j, In j (map fst l) <-> easier g g' j
  | Superfluous => forall j, ~ easier g g' j
  | _ => True
  end.
