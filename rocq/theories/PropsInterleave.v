(** * Properties of --analyzeInterleaving: C29 *)

From Coq Require Import String Arith List Bool Lia.
From Verif Require Import BDD Loop Spec VarTypes Synth Sem FixBase SynthProofs Verdict PropsSynth
  Interleave InterleaveSpec InterleaveProofs InterleaveLoops InterleaveReport.
Import ListNotations.
Local Open Scope list_scope.
Local Arguments isOut : simpl never.

(** The name of the k-th signal; its BDD variables are 2k and 2k+1. *)
Definition signal (c : ctx) (k : nat) : string := nth (2 * k) (varNames c) EmptyString.
(** The output that is declared last. *)
Definition lastOutput (c : ctx) (k : nat) : Prop :=
  k < nvars c /\ g_out (game_of c) k = true /\ forall i, k < i -> i < nvars c -> g_out (game_of c) i = false.
(** [names] are the names of the signals in [A], in order. *)
Definition namesOf (c : ctx) (A : nat -> bool) (names : list string) : Prop :=
  names = map (signal c) (filter A (seq 0 (nvars c))).

(** The analysis terminates without exception.  It says that there is nothing to be analysed
    exactly for unrealizable specifications.  For a realizable one it goes through the outputs in
    their order of declaration and collects each one with which the outputs collected so far still
    can be set before the input is read.  If there is one, it prints those that are collected,
    and the last output in any case.  If there is none, the report depends on a variable that has no value. *)
Theorem C29_report_partial : forall c, wf c ->
  (~ realizable (game_of c) /\ interleave c = Some NotRealizable) \/
  (realizable (game_of c) /\ exists B A : nat -> bool,
     (forall k, B k = true <-> k < nvars c /\ g_out (game_of c) k = true /\
        realizable_before (game_of c) (add k (fun i => B i && Nat.ltb i k))) /\
     realizable_before (game_of c) B /\
     (forall k, A k = true <-> B k = true \/ lastOutput c k) /\
     (((forall k, B k = false) /\ interleave c = Some Uninitialised) \/
      ((exists k, B k = true) /\ exists names, namesOf c A names /\ interleave c = Some (StaysRealizable names)))).
Proof.
  intros c Hwf. destruct (report_spec c Hwf) as [[E H]|[HR (B & A & G & R & HA & H)]]; [left; auto|right].
  split; auto. exists B, A. split; [exact G|]. split; auto. split.
  - intros k. rewrite HA. unfold isLast, lastOutput. cbn [g_out game_of]. split; (intros [H1|(H1 & H2 & H3)]; [now left|right]); repeat split; auto.
    intros i [H4 H5]. auto.
  - destruct H as [H|[H1 H2]]; [now left|right]. split; auto. eexists. split; [reflexivity|exact H2].
Qed.
Print Assumptions C29_report_partial.

(** What is printed is right for each set of signals that does not contain the last output. *)
Theorem C29_printed_partial : forall c names, wf c -> interleave c = Some (StaysRealizable names) ->
  exists A, namesOf c A names /\ (forall k, A k = true -> g_out (game_of c) k = true) /\
    forall B, (forall k, B k = true -> A k = true /\ ~ lastOutput c k) -> realizable_before (game_of c) B.
Proof.
  intros c names Hwf E. destruct (C29_report_partial c Hwf) as [[_ E']|[_ (B & A & G & R & HA & H)]]; [rewrite E in E'; discriminate|].
  destruct H as [[_ E']|(_ & n' & Hn & E')]; rewrite E in E'; [discriminate|]. inversion E'; subst n'. clear E'.
  exists A. split; auto. split.
  - intros k H. apply HA in H. destruct H as [H|H]; [now apply G in H|apply H].
  - intros B' HB'. destruct R as (f & Hb & Hf). exists f. split; auto. intros h x x' k Hh HBk. apply Hb; auto.
    destruct (HB' k HBk) as [H1 H2]. apply HA in H1. tauto.
Qed.
Print Assumptions C29_printed_partial.

(** An uninitialised variable is read exactly if the specification is realizable and no output on its
    own can be set before the input is read. *)
Theorem C29_undefined : forall c, wf c ->
  (interleave c = Some Uninitialised <->
   realizable (game_of c) /\ forall k, k < nvars c -> g_out (game_of c) k = true -> ~ realizable_before (game_of c) (Nat.eqb k)).
Proof.
  intros c Hwf. destruct (C29_report_partial c Hwf) as [[N E]|[HR (B & A & G & R & HA & H)]].
  - rewrite E. split; [discriminate|]. intros [H _]. now apply N in H.
  - split.
    + intros E. split; auto. intros k L O R1. destruct H as [[H1 _]|(_ & names & _ & E')]; [|rewrite E in E'; discriminate].
      assert (X : B k = true); [|rewrite H1 in X; discriminate]. apply G. split; auto. split; auto. revert R1.
      apply realizable_before_ext. intros i. unfold add. rewrite H1, (Nat.eqb_sym k i). now rewrite orb_false_r.
    + intros [_ N]. destruct H as [[_ H]|((k & H1) & _)]; auto. exfalso. apply G in H1. destruct H1 as (L & O & f & Hb & Hf).
      apply (N k L O). exists f. split; auto. intros h x x' i Hh Hi. apply Hb; auto. unfold add. now rewrite Nat.eqb_sym, Hi.
Qed.
Print Assumptions C29_undefined.

(** ** Findings *)

(** b has to be a. *)
Definition exCopy : ctx := mkCtx exNames exTypes [btrue] [btrue] btrue btrue btrue (bnot (bxor (bvar 1) (bvar 3))).
(** b is a initially. *)
Definition exFirst : ctx := mkCtx exNames exTypes [btrue] [btrue] btrue (bnot (bxor (bvar 0) (bvar 2))) btrue btrue.
(** A further output d that has to be a, and b is free. *)
Definition exLast : ctx := mkCtx ["a"; "a'"; "b"; "b'"; "d"; "d'"]%string [PreInput; PostInput; PreOutput; PostOutput; PreOutput; PostOutput]
  [btrue] [btrue] btrue btrue btrue (bnot (bxor (bvar 1) (bvar 5))).

Ltac wf_ex k := constructor; cbn [varTypes livenessAssumptions livenessGuarantees initEnv initSys safetyEnv safetySys exCopy exFirst exLast];
  [exists k; split; reflexivity|dep_ex|dep_ex|dep_ex|dep_ex|repeat constructor; dep_ex|repeat constructor; dep_ex|discriminate|discriminate].
Lemma exCopy_wf : wf exCopy.
Proof. wf_ex [PreInput; PreOutput]. Qed.
Lemma exFirst_wf : wf exFirst.
Proof. wf_ex [PreInput; PreOutput]. Qed.
Lemma exLast_wf : wf exLast.
Proof. wf_ex [PreInput; PreOutput; PreOutput]. Qed.

(** The variable foundOne is read without having a value. *)
Theorem C29_uninitialised_refuted : exists c, wf c /\ interleave c = Some Uninitialised.
Proof. exists exCopy. split; [exact exCopy_wf|]. vm_compute. reflexivity. Qed.
Print Assumptions C29_uninitialised_refuted.

(** A set of outputs is printed with which the specification becomes unrealizable, as
    doesVariableInheritType still is about the last trial. *)
Theorem C29_stale_refuted : exists c A names, wf c /\ interleave c = Some (StaysRealizable names) /\ namesOf c A names /\
  (forall k, A k = true -> g_out (game_of c) k = true) /\ ~ realizable_before (game_of c) A.
Proof.
  exists exLast, (fun k => Nat.eqb k 1 || Nat.eqb k 2), ["b"; "d"]%string. split; [exact exLast_wf|].
  split; [vm_compute; reflexivity|]. split; [vm_compute; reflexivity|].
  assert (HA : forall k, (Nat.eqb k 1 || Nat.eqb k 2) = true -> isOut exLast k = true).
  { intros [|[|[|k]]] H; try discriminate; reflexivity. }
  split; [exact HA|]. destruct (check_same exLast exLast_wf _ HA) as [[E _]|[_ N]]; auto. vm_compute in E. discriminate.
Qed.
Print Assumptions C29_stale_refuted.

(** The initial values of the printed outputs may have to depend on the initial input. *)
Theorem C29_initial_refuted : exists c A names, wf c /\ interleave c = Some (StaysRealizable names) /\ namesOf c A names /\
  (forall k, A k = true -> g_out (game_of c) k = true) /\ realizable_before (game_of c) A /\ ~ realizable_always_before (game_of c) A.
Proof.
  exists exFirst, (fun k => Nat.eqb k 1), ["b"]%string. split; [exact exFirst_wf|].
  split; [vm_compute; reflexivity|]. split; [vm_compute; reflexivity|].
  assert (HA : forall k, Nat.eqb k 1 = true -> isOut exFirst k = true).
  { intros [|[|k]] H; try discriminate; reflexivity. }
  split; [exact HA|]. split.
  - destruct (check_same exFirst exFirst_wf _ HA) as [[_ R]|[E _]]; auto. vm_compute in E. discriminate.
  - intros (f & Hb & Hf). specialize (Hb [] (fun _ => true) (fun _ => false) 1 eq_refl).
    assert (E : forall x, f [] (fun _ => x) 1 = x).
    { intros x. destruct (Hf (fun _ _ => x)) as [H _]; [reflexivity|]. revert H. cbn [g_initS game_of]. unfold pos.
      cbn [initSys exFirst]. rewrite eval_not, eval_xor, !eval_var.
      change (negb (xorb x (f [] (fun _ => x) 1)) = true -> f [] (fun _ => x) 1 = x).
      destruct (f [] (fun _ => x) 1), x; auto; intros H; discriminate H. }
    rewrite !E in Hb. discriminate.
Qed.
Print Assumptions C29_initial_refuted.

(** In exLast, b is collected and d is not. *)
Example C29_report_example : wf exLast /\ realizable (game_of exLast) /\ interleave exLast = Some (StaysRealizable ["b"; "d"]%string) /\
  realizable_before (game_of exLast) (Nat.eqb 1) /\ ~ realizable_before (game_of exLast) (Nat.eqb 2) /\ lastOutput exLast 2.
Proof.
  split; [exact exLast_wf|]. split.
  { destruct (check_cases exLast exLast_wf) as [[_ H]|[C _]]; auto. vm_compute in C. discriminate. }
  split; [vm_compute; reflexivity|]. split; [|split].
  - destruct (check_same exLast exLast_wf (Nat.eqb 1)) as [[_ R]|[E _]]; auto; [|vm_compute in E; discriminate].
    intros [|[|k]] H; try discriminate; reflexivity.
  - destruct (check_same exLast exLast_wf (Nat.eqb 2)) as [[E _]|[_ R]]; auto; [|vm_compute in E; discriminate].
    intros [|[|[|k]]] H; try discriminate; reflexivity.
  - split; [vm_compute; lia|]. split; [reflexivity|]. intros i L1 L2. vm_compute in L2. lia.
Qed.
Example C29_undefined_example : wf exCopy /\ realizable (game_of exCopy) /\ interleave exFirst <> Some Uninitialised.
Proof.
  split; [exact exCopy_wf|]. split.
  { destruct (check_cases exCopy exCopy_wf) as [[_ H]|[C _]]; auto. vm_compute in C. discriminate. }
  vm_compute. discriminate.
Qed.
