(** * C95: the benchmark files for the game between Cinderella and the stepmother *)

From Coq Require Import String Ascii List Bool Arith NArith ZArith Lia.
From Verif Require Import FormulaSpec Parser Spec FileSpec StructuredSpec StructGrammar StructFileSpec StuckSpec Synth Execute Structured StructFile MinCoreProofs PropsStructFile
  CinderellaSpec Cinderella CinderellaProofs CinderellaFile CinderellaGame.
Import ListNotations.
Local Open Scope string_scope.
Local Open Scope list_scope.

(** For every configuration: if the file of the generator is translated, and slugs gives a verdict for the translated file,
    then it says which player of the game wins. *)
Theorem C95_verdict : forall buckets power capacity water thoroughly ord out v,
  0 < buckets -> 0 < power ->
  performConversion thoroughly (cinderellaText buckets power capacity water) = Ret out ->
  (N.of_nat (String.length out) < maxNumber)%N ->
  executeFile ord out = POk v ->
  (v = Realizable /\ cinderellaWins buckets power capacity water) \/ (v = Unrealizable /\ ~ cinderellaWins buckets power capacity water).
Proof.
  intros n c cap p th ord out v Hn Hc HP HLen EX.
  assert (IN : forall s l, In (s, l) (LS order (linesIn n c cap p)) -> In l (linesIn n c cap p s)) by (intros s l H; now apply in_LS in H).
  assert (A : (v = Realizable <-> intRealizable (ins n p) (outs n cap) (m n c cap p)) /\ (v = Unrealizable <-> intUnrealizable (ins n p) (outs n cap) (m n c cap p)) /\ (v = Realizable \/ v = Unrealizable)).
  { assert (H1 := text_layout n c cap p Hn Hc). assert (H2 : Forall2 declares (linesOf SInput (LS order (linesIn n c cap p))) (ins n p)) by (rewrite text_lines; apply declares_in).
    assert (H3 : Forall2 declares (linesOf SOutput (LS order (linesIn n c cap p))) (outs n cap)) by (rewrite text_lines; eapply declares_out; eassumption).
    assert (H4 : NoDup (map fst (integers (ins n p ++ outs n cap)))) by (rewrite integers_names by apply declared_ints; apply names_distinct).
    assert (H5 : forall s line, formulaSection s = true -> In (s, line) (LS order (linesIn n c cap p)) -> blanksOnly line) by (intros s l _ H; eapply ok_blanks, ok_lines; [exact Hn|exact Hc|apply IN, H]).
    assert (H6 : plain_file (LS order (linesIn n c cap p))) by (intros s l _ H; eapply ok_plain, ok_lines; [exact Hn|exact Hc|apply IN, H]).
    destruct (C81_exact th ord _ out v _ _ _ (m n c cap p) HP H1 H2 H3 (declared_tokens n cap p) H4 H5 H6 HLen EX) as [R U].
    { intros s Hs. rewrite text_lines. now apply means_all. }
    split; [exact R|]. split; [exact U|].
    destruct (C81_verdict th ord _ out v _ _ _ HP H1 H2 H3 (declared_tokens n cap p) H4 H5 H6 HLen EX) as (m' & _ & [[-> _]|[-> _]]); auto. }
  destruct A as (R & U & [-> | ->]).
  - left. split; [reflexivity|]. now apply (realizable_iff n c cap p Hn Hc), R.
  - right. split; [reflexivity|]. intros W. apply (realizable_iff n c cap p Hn Hc) in W. apply R in W. discriminate W.
Qed.
Print Assumptions C95_verdict.

(** Three buckets, of which Cinderella can empty one in each step; the stepmother pours two units: slugs finds out that
    she cannot avoid an overflow for a capacity of two.  For two buckets and one unit, she can. *)
Definition run (n c cap p : nat) : option (pres verdict) :=
  match performConversion false (cinderellaText n c cap p) with
  | Ret out => if (N.of_nat (String.length out) <? maxNumber)%N then Some (executeFile (fun _ => true) out) else None
  | _ => None
  end.
Lemma run_spec n c cap p v : run n c cap p = Some (POk v) -> exists out,
  performConversion false (cinderellaText n c cap p) = Ret out /\ (N.of_nat (String.length out) < maxNumber)%N /\ executeFile (fun _ => true) out = POk v.
Proof.
  unfold run. destruct (performConversion false (cinderellaText n c cap p)) as [out| |]; try discriminate. destruct (N.ltb_spec (N.of_nat (String.length out)) maxNumber) as [L|_]; [|discriminate].
  intros E. exists out. split; [reflexivity|]. split; [exact L|congruence].
Qed.
Example C95_example : ~ cinderellaWins 3 1 2 2 /\ cinderellaWins 2 1 1 1.
Proof.
  assert (A : run 3 1 2 2 = Some (POk Unrealizable)) by (vm_compute; reflexivity). assert (B : run 2 1 1 1 = Some (POk Realizable)) by (vm_compute; reflexivity).
  apply run_spec in A, B. destruct A as (out & A1 & A2 & A3), B as (out' & B1 & B2 & B3).
  split; [destruct (C95_verdict _ _ _ _ _ _ _ _ (Nat.lt_0_succ 2) Nat.lt_0_1 A1 A2 A3) as [[E _]|[_ W]]; [discriminate E|exact W]|].
  destruct (C95_verdict _ _ _ _ _ _ _ _ (Nat.lt_0_succ 1) Nat.lt_0_1 B1 B2 B3) as [[_ W]|[E _]]; [exact W|discriminate E].
Qed.
