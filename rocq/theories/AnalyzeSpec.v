(** * Specification: numbers of valuations, reachable states, cubes *)

From Coq Require Import String Ascii ZArith NArith Arith List Bool.
From Verif Require Import Spec FileSpec.
Import ListNotations.

(** The state with the values [v] for the variables [ks] (and false for all others). *)
Fixpoint place (ks : list nat) (v : list bool) : state :=
  match ks, v with
  | x :: ks, b :: v => fun k => if Nat.eqb k x then b else place ks v k
  | _, _ => fun _ => false
  end.

(** [n] is the number of valuations of the variables [ks] with the property [P]. *)
Definition numberOf (ks : list nat) (P : state -> Prop) (n : N) : Prop :=
  exists l : list (list bool), NoDup l /\ N.of_nat (length l) = n /\
    forall v, In v l <-> length v = length ks /\ P (place ks v).

(** States that can occur in a run in which no player violates an initial or safety
    condition. *)
Inductive reach (g : game) : state -> Prop :=
| reach_init s : g_initE g s = true -> g_initS g s = true -> reach g s
| reach_step s t : reach g s -> g_safeE g s t = true -> g_safeS g s t = true -> reach g t.

(** A state is described by a cube: entry 1 / -1 / 0 for a variable that has to be
    true / has to be false / is arbitrary. *)
Definition matches (cube : list Z) (s : state) : Prop :=
  forall k, (nth k cube 0%Z = 1%Z -> s k = true) /\ (nth k cube 0%Z = (-1)%Z -> s k = false).

(** The lines of a file with content that are marked by a comment about variable limits: such
    a comment is between the line and the previous line with content or section header. *)
Definition limitComment (s : string) : bool := prefix "## Variable limits: " s.
Fixpoint markedLines (cur : option section) (marked : bool) (lines : list string) : items :=
  match lines with
  | [] => []
  | l :: ls =>
      match strip l with
      | EmptyString => markedLines cur marked ls
      | String a _ =>
          if (a =? "#")%char then markedLines cur (marked || limitComment (strip l)) ls
          else if (a =? "[")%char then markedLines (find (fun s => String.eqb (header s) (strip l)) sections) false ls
          else match cur with
               | Some s => if marked then (s, strip l) :: markedLines cur false ls else markedLines cur false ls
               | None => markedLines cur false ls
               end
      end
  end.
(** Those in the sections about initial positions. *)
Definition limitLines (content : string) : items :=
  filter (fun p => sec_eqb (fst p) SEnvInit || sec_eqb (fst p) SSysInit) (markedLines None false (file_lines content)).
