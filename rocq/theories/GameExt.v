(** * Realizability depends only on the declared variables *)

From Coq Require Import Arith List Bool Lia.
From Verif Require Import Spec.
Import ListNotations.

(** Two sequences agree on the first N variables. *)
Definition agree (N : nat) (pi pi' : nat -> state) : Prop :=
  forall n k, k < N -> pi n k = pi' n k.

Section TRANSFER.
  Variables g g' : game.
  Variable N : nat.
  Hypothesis Hout : forall k, g_out g k = g_out g' k.

  (** The inputs of a position, in a form that does not depend on its representation. *)
  Definition norm (s : state) : state :=
    let l := map (fun k => if g_out g k then false else s k) (seq 0 N) in
    fun k => nth k l false.

  Lemma norm_val s k : k < N -> g_out g k = false -> norm s k = s k.
  Proof.
    intros Hk Ho. unfold norm. set (F := fun k => if g_out g k then false else s k).
    rewrite nth_indep with (d' := F 0) by (rewrite map_length, seq_length; lia).
    rewrite map_nth, seq_nth by lia. unfold F. cbn. now rewrite Ho.
  Qed.

  Lemma norm_eq s s' : (forall k, k < N -> g_out g k = false -> s k = s' k) -> norm s = norm s'.
  Proof.
    intros H. unfold norm.
    assert (E : map (fun k => if g_out g k then false else s k) (seq 0 N)
              = map (fun k => if g_out g k then false else s' k) (seq 0 N)).
    { apply map_ext_in. intros k Hk. apply in_seq in Hk. destruct (g_out g k) eqn:E; auto. apply H; auto. lia. }
    now rewrite E.
  Qed.

  Variable f : strategy.

  Fixpoint rebuild (h : list state) : list state :=
    match h with
    | [] => []
    | s :: h => let r := rebuild h in merge g (norm s) (f r (norm s)) :: r
    end.

  Definition transfer : strategy := fun h x => f (rebuild h) (norm x).

  Lemma norm_merge x y : norm (merge g' x y) = norm x.
  Proof. apply norm_eq. intros k _ Hk. unfold merge. now rewrite <- Hout, Hk. Qed.

  Lemma history_transfer x n :
    rebuild (history g' transfer x n) = history g f (fun m => norm (x m)) n.
  Proof.
    induction n as [|n IH]; cbn [history rebuild].
    - now rewrite norm_merge.
    - now rewrite norm_merge, IH.
  Qed.

  Lemma play_transfer x : agree N (play g' transfer x) (play g f (fun m => norm (x m))).
  Proof.
    intros n k Hk. unfold play. destruct n as [|n]; cbn [history hd]; unfold merge; rewrite <- Hout.
    - destruct (g_out g k) eqn:E; [reflexivity|]. symmetry. now apply norm_val.
    - destruct (g_out g k) eqn:E.
      + unfold transfer at 1. now rewrite history_transfer.
      + symmetry. now apply norm_val.
  Qed.
End TRANSFER.

(** A strategy in one game can be played in the other one. *)
Lemma strategy_transfer g g' N : (forall k, g_out g k = g_out g' k) ->
  forall f, exists f', forall x, exists x', agree N (play g' f' x) (play g f x').
Proof.
  intros H f. exists (transfer g N f). intros x. eexists. now apply play_transfer.
Qed.

(** Game [g'] has at least the plays of [g] that satisfy the objective. *)
Definition subobj (N : nat) (g g' : game) : Prop :=
  forall pi pi', agree N pi pi' -> objective g pi' -> objective g' pi.

Lemma realizable_transfer g g' N : (forall k, g_out g k = g_out g' k) -> subobj N g g' ->
  realizable g -> realizable g'.
Proof.
  intros H S (f & Hf). destruct (strategy_transfer g g' N H f) as (f' & Hf'). exists f'.
  intros x. destruct (Hf' x) as (x' & A). eapply S; eauto.
Qed.

(** If every strategy can be defeated in [g'], then in [g]. *)
Lemma defeat_transfer g g' N : (forall k, g_out g k = g_out g' k) -> subobj N g g' ->
  (forall f, exists x, ~ objective g' (play g' f x)) ->
  (forall f, exists x, ~ objective g (play g f x)).
Proof.
  intros H S D f. destruct (strategy_transfer g g' N H f) as (f' & Hf').
  destruct (D f') as (x & Hx). destruct (Hf' x) as (x' & A). exists x'. intros O. apply Hx.
  eapply S; eauto.
Qed.
