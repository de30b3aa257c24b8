(** * While loops

    All "for (;!x.isFixedPointReached();)" loops and worklist loops of the code
    are modelled with the combinator of this file.  [loop n] performs at most 2^n
    iterations, so a small amount of fuel suffices for every loop of the model;
    running out of fuel is the explicit outcome [None].  The relation [Runs] is
    the unbounded semantics of the loop. *)

From Coq Require Import Arith List Lia Bool.
Import ListNotations.

(** Outcome of one iteration of a loop body: continue with a new loop state,
    leave the loop with a result, or abort (an inner loop ran out of fuel). *)
Inductive step (S R : Type) : Type :=
| Cont (s : S)
| Done (r : R)
| Abort.
Arguments Cont {S R} s.
Arguments Done {S R} r.
Arguments Abort {S R}.

Section LOOP.
  Context {S R : Type}.
  Variable body : S -> step S R.

  (** At most 2^n iterations of the body. *)
  Fixpoint loop (n : nat) (s : S) : step S R :=
    match n with
    | O => body s
    | Datatypes.S n =>
        match loop n s with
        | Cont s' => loop n s'
        | o => o
        end
    end.

  Definition run (n : nat) (s : S) : option R :=
    match loop n s with
    | Done r => Some r
    | _ => None
    end.

  (** The loop started in [s] is left with result [r]. *)
  Inductive Runs : S -> R -> Prop :=
  | Runs_done s r : body s = Done r -> Runs s r
  | Runs_cont s s' r : body s = Cont s' -> Runs s' r -> Runs s r.

  Lemma Runs_det s r r' : Runs s r -> Runs s r' -> r = r'.
  Proof.
    intros H. revert r'. induction H as [s r Hs|s s' r Hs H IH]; intros r' H'.
    - inversion H'; congruence.
    - inversion H' as [? ? Hs'|? s'' ? Hs' Hr]; [congruence|].
      apply IH. congruence.
  Qed.

  (** Iterating the body exactly k times. *)
  Inductive stepsTo : nat -> S -> S -> Prop :=
  | st_0 s : stepsTo 0 s s
  | st_S k s s' s'' : body s = Cont s' -> stepsTo k s' s'' -> stepsTo (Datatypes.S k) s s''.

  Lemma stepsTo_app k s s' : stepsTo k s s' -> forall k' s'', stepsTo k' s' s'' -> stepsTo (k + k') s s''.
  Proof.
    induction 1; intros k' t Ht; cbn; auto. econstructor; eauto.
  Qed.

  Lemma loop_Runs n : forall s,
    match loop n s with
    | Cont s' => stepsTo (2 ^ n) s s'
    | Done r => Runs s r
    | Abort => exists k s', stepsTo k s s' /\ body s' = Abort
    end.
  Proof.
    induction n as [|n IH]; intros s; cbn [loop].
    - destruct (body s) eqn:E.
      + econstructor; eauto. constructor.
      + now constructor.
      + exists 0, s. split; auto. constructor.
    - specialize (IH s) as H1. destruct (loop n s) as [s'|r|].
      + specialize (IH s') as H2. destruct (loop n s') as [s''|r|].
        * replace (2 ^ Datatypes.S n) with (2 ^ n + 2 ^ n) by (cbn; lia).
          eapply stepsTo_app; eauto.
        * clear -H1 H2. induction H1; auto. eapply Runs_cont; eauto.
        * destruct H2 as (k & t & Hk & Ht). exists (2 ^ n + k), t. split; auto.
          eapply stepsTo_app; eauto.
      + auto.
      + auto.
  Qed.

  Lemma run_Runs n s r : run n s = Some r -> Runs s r.
  Proof.
    unfold run. pose proof (loop_Runs n s) as H.
    destruct (loop n s); intros E; inversion E; subst; auto.
  Qed.

  (** Termination: an invariant and a measure below 2^n. *)
  Lemma run_total (Inv : S -> Prop) (m : S -> nat) n s :
    Inv s ->
    (forall s, Inv s -> match body s with
                        | Cont s' => Inv s' /\ m s' < m s
                        | Done _ => True
                        | Abort => False
                        end) ->
    m s < 2 ^ n ->
    exists r, run n s = Some r /\ Runs s r.
  Proof.
    intros Hi Hb Hm.
    assert (G : forall k t t', stepsTo k t t' -> Inv t -> Inv t' /\ m t' + k <= m t).
    { induction 1 as [t|k t t' t'' E H IH]; intros It.
      - split; auto; lia.
      - specialize (Hb t It). rewrite E in Hb. destruct Hb as [It' Hlt].
        destruct (IH It') as [I Hle]. split; auto. lia. }
    pose proof (loop_Runs n s) as H. unfold run.
    destruct (loop n s) as [s'|r|].
    - destruct (G _ _ _ H Hi) as [_ Hle]. lia.
    - exists r. auto.
    - destruct H as (k & t & Hk & Ht). destruct (G _ _ _ Hk Hi) as [It _].
      specialize (Hb t It). rewrite Ht in Hb. contradiction.
  Qed.

  (** Partial correctness. *)
  Lemma Runs_inv (Inv : S -> Prop) (Q : R -> Prop) s r :
    Runs s r -> Inv s ->
    (forall s s', Inv s -> body s = Cont s' -> Inv s') ->
    (forall s r, Inv s -> body s = Done r -> Q r) ->
    Q r.
  Proof.
    intros H Hi Hc Hd. induction H as [s r Hs|s s' r Hs H IH]; eauto.
  Qed.

  (** The last iteration: some state satisfying the invariant produced the result. *)
  Lemma Runs_last (Inv : S -> Prop) s r :
    Runs s r -> Inv s ->
    (forall s s', Inv s -> body s = Cont s' -> Inv s') ->
    exists t, Inv t /\ body t = Done r.
  Proof.
    intros H Hi Hc. induction H as [s r Hs|s s' r Hs H IH]; eauto.
  Qed.
End LOOP.

(** The result does not depend on the fuel. *)
Lemma run_fuel_irrelevant {S R} (body : S -> step S R) n m s r r' :
  run body n s = Some r -> run body m s = Some r' -> r = r'.
Proof.
  intros H H'. eapply Runs_det; eapply run_Runs; eauto.
Qed.

(** Bodies that agree pointwise give the same loops. *)
Lemma loop_ext {S R} (b b' : S -> step S R) n : (forall s, b s = b' s) ->
  forall s, loop b n s = loop b' n s.
Proof.
  intros H. induction n as [|n IH]; intros s; cbn [loop]; auto.
  rewrite IH. destruct (loop b' n s); auto.
Qed.

(** Simulation between two loops. *)
Lemma loop_sim {S R S' R'} (b : S -> step S R) (b' : S' -> step S' R')
  (f : S -> S') (g : R -> R') n :
  (forall s, b' (f s) = match b s with
                        | Cont t => Cont (f t) | Done r => Done (g r) | Abort => Abort end) ->
  forall s, loop b' n (f s) = match loop b n s with
                        | Cont t => Cont (f t) | Done r => Done (g r) | Abort => Abort end.
Proof.
  intros H. induction n as [|n IH]; intros s; cbn [loop]; auto.
  rewrite IH. destruct (loop b n s); auto.
Qed.
