(** * Specification: the game between Cinderella and the stepmother

    Independent of the model of the generator.  Follows the comments in
    /repo/examples/benchmark_generators/cinderella_stepmother.py, lines 3 and 15-21. *)

From Coq Require Import List Arith.
Import ListNotations.

Section GAME.
  (** The number of buckets, which form a circle; the number of adjacent buckets that Cinderella can empty in each
      step; the capacity of a bucket; the units of water that the stepmother can pour in each step. *)
  Variables buckets power capacity water : nat.

  (** What the stepmother pours in one step: one number of units per bucket. *)
  Definition pour : Type := list nat.
  Definition allowed (w : pour) : Prop := length w = buckets /\ list_sum w <= water.

  (** Cinderella sees everything that was poured so far, the latest first, and chooses the first bucket to be emptied. *)
  Definition cinderella : Type := list pour -> nat.
  (** Starting at bucket [first], bucket i is emptied. *)
  Definition isEmptied (first i : nat) : bool := existsb (fun d => (first + d) mod buckets =? i) (seq 0 power).

  (** The content of bucket i.  At first, all buckets are empty; in every step, Cinderella empties buckets, and then the
      stepmother pours. *)
  Fixpoint level (strategy : cinderella) (poured : list pour) (i : nat) : nat :=
    match poured with
    | [] => 0
    | w :: before => (if isEmptied (strategy before) i then 0 else level strategy before i) + nth i w 0
    end.

  (** Cinderella can make sure that no bucket ever overflows. *)
  Definition cinderellaWins : Prop :=
    exists strategy, (forall poured, strategy poured < buckets) /\
      forall poured, Forall allowed poured -> forall i, i < buckets -> level strategy poured i <= capacity.
End GAME.
