(** * Properties of the comparison with another synthesis tool (C93) *)

From Coq Require Import String Ascii List Bool Arith NArith ZArith Lia.
From Verif Require Import Spec VarTypes Synth FormulaSpec Parser FileSpec Execute Explicit FileProofs PropsParser SearchSpec Aig AigSpec AigProofs AigMain AigGame PropsAig
  Fuzz FuzzProofs.
Import ListNotations.
Local Open Scope string_scope.
Local Notation nl := Explicit.nl.

(** ** The specifications *)

(** Whatever the random numbers are, the tool writes a specification that follows the grammar: the variables are the
    given numbers of inputs and outputs, every formula uses variables that are permitted in its section and buffer
    elements that are computed already, there are no liveness properties, and words are separated by single blanks. *)
Theorem C93_specification : forall n ds content rest, specification n ds = GOk content rest ->
  exists L, layout None (file_lines content) = Some L /\ NoDup (declared L) /\ grammatical L /\ plain_file L /\
    safety_only L /\ single_blanks L /\
    linesOf SInput L = map (fun i => "in" ++ showNat i) (seq 0 n) /\
    linesOf SOutput L = map (fun i => "out" ++ showNat i) (seq 0 n).
Proof. exact specification_spec. Qed.
Print Assumptions C93_specification.

(** If there is a variable, writing the specification raises no exception: it ends, or it needs more random numbers
    than those given. *)
Theorem C93_no_exception : forall n ds, n <> 0%nat ->
  specification n ds = GMore \/ exists content rest, specification n ds = GOk content rest.
Proof. exact specification_outcome. Qed.
Print Assumptions C93_no_exception.

(** Without variables, there is an exception for some random numbers. *)
Example C93_no_variables_example : specification 0 [1; 3]%nat = GExc.
Proof. reflexivity. Qed.

(** slugs accepts the specification and gives a verdict. *)
Theorem C93_accepted : forall ord n ds content rest, specification n ds = GOk content rest ->
  (exists c, initContext ord content = POk c) /\
  (executeFile ord content = POk Realizable \/ executeFile ord content = POk Unrealizable).
Proof.
  intros ord n ds content rest E. destruct (specification_spec _ _ _ _ E) as (L & El & ND & G & PF & _).
  destruct (C41_documented_file ord content L El ND G PF) as (fs & _ & [[V _]|[V _]]); (split; [|auto]);
    unfold executeFile in V; destruct (initContext ord content) as [c| | |]; try discriminate V; eauto.
Qed.
Print Assumptions C93_accepted.

(** ** The test *)

Lemma monolithic_other lines : forall r, (forall x b, In x lines -> ~ says b x) ->
  fold_left (fun r l => if String.eqb (trim l) "RESULT: Specification is unrealizable." then Some false
    else if String.eqb (trim l) "RESULT: Specification is realizable." then Some true else r) lines r = r.
Proof.
  induction lines as [|l lines IH]; intros r H; [reflexivity|]. cbn [fold_left]. rewrite trim_spec.
  destruct (String.eqb_spec (strip l) "RESULT: Specification is unrealizable.") as [E|_]; [elim (H l false); [now left|exact E]|].
  destruct (String.eqb_spec (strip l) "RESULT: Specification is realizable.") as [E|_]; [elim (H l true); [now left|exact E]|].
  apply IH. intros x b Hx. apply H. now right.
Qed.
Lemma monolithic_says lines v code : answers (lines, code) v -> code = 0%Z /\ monolithicResult lines = Some v.
Proof.
  intros (E & A & line & B & E' & S & N). cbn [fst snd] in *. split; auto. subst lines. unfold monolithicResult.
  rewrite fold_left_app, (monolithic_other A) by (intros x b Hx; apply N, in_or_app; auto). cbn [fold_left]. unfold says in S.
  rewrite (monolithic_other B) by (intros x b Hx; apply N, in_or_app; auto). rewrite trim_spec, S. destruct v; reflexivity.
Qed.

(** The exit code of Aisy is right for the given circuit: 10 if it is realizable, and 20 if it is unrealizable. *)
Definition right_for (aisy : list string -> option Z) (lines : list string) : Prop :=
  forall M A names, aag_text M A names lines ->
    (aig_realizable A names -> aisy lines = Some 10%Z) /\ (aig_unrealizable A names -> aisy lines = Some 20%Z).

Lemma same_game L fs fs' : (forall s, formulaSection s = true -> fs s = fs' s) -> file_game L fs = file_game L fs'.
Proof.
  intros E. unfold file_game. now rewrite !(E SEnvInit eq_refl), !(E SSysInit eq_refl), !(E SEnvTrans eq_refl), !(E SSysTrans eq_refl), !(E SEnvLive eq_refl), !(E SSysLive eq_refl).
Qed.

(** Let [v] be the answer that slugs (or any other program in its place) gives for a random specification.  If the other tools
    work, the test reports an error exactly if the answer is wrong for the game that the file describes. *)
Theorem C93_test : forall slugs aisy n ds content rest v,
  specification n ds = GOk content rest -> answers (slugs content) v ->
  exists L fs circuit, layout None (file_lines content) = Some L /\ formulas_of false L fs /\ aigMain content = TOk circuit /\
    (right_for aisy circuit ->
     (realizable (file_game L fs) /\ fuzzTest slugs aisy content = (if v then Plus else AisySaysRealizable)) \/
     ((forall f, exists x, ~ objective (file_game L fs) (play (file_game L fs) f x)) /\
      fuzzTest slugs aisy content = (if v then AisySaysUnrealizable else Minus))).
Proof.
  intros slugs aisy n ds content rest v E HA.
  destruct (specification_spec _ _ _ _ E) as (L & El & ND & G & PF & SO & SB & EI & EO).
  set (ord := fun _ : nat => true).
  destruct (C78_same_verdict ord content L El ND G PF SO SB) as (lines & H1 & (M & A & names & T) & H3).
  { intros w Hw. rewrite EI in Hw. apply in_map_iff in Hw. destruct Hw as (i & <- & _). reflexivity. }
  destruct (gram_formulas L G) as (fs & F). exists L, fs, lines. split; auto. split; auto. split; auto. intros R.
  destruct (R M A names T) as [R1 R2]. destruct (H3 M A names T) as [V1 V2].
  destruct (C41_documented_file ord content L El ND G PF) as (fs' & F' & V).
  assert (EG : file_game L fs = file_game L fs').
  { apply same_game. apply (formulas_unique L fs fs' ND); auto. now apply formulas_loosen. }
  rewrite EG. unfold fuzzTest. destruct (slugs content) as [out code]. destruct (monolithic_says _ _ _ HA) as [-> ->]. rewrite H1. cbn [Z.eqb negb].
  destruct V as [[V X]|[V X]]; [left|right]; (split; [exact X|]).
  - rewrite (R1 (proj1 V1 V)). reflexivity.
  - rewrite (R2 (proj1 V2 V)). reflexivity.
Qed.
Print Assumptions C93_test.

(** If slugs reports its verdict in one line, the test passes. *)
Theorem C93_passes : forall ord slugs aisy n ds content rest circuit,
  specification n ds = GOk content rest ->
  (executeFile ord content = POk Realizable -> answers (slugs content) true) ->
  (executeFile ord content = POk Unrealizable -> answers (slugs content) false) ->
  aigMain content = TOk circuit -> right_for aisy circuit ->
  fuzzOnce slugs aisy n ds = GOk Plus rest \/ fuzzOnce slugs aisy n ds = GOk Minus rest.
Proof.
  intros ord slugs aisy n ds content rest circuit E S1 S2 EC R. unfold fuzzOnce. rewrite E. cbn [gbind].
  destruct (specification_spec _ _ _ _ E) as (L & El & ND & G & PF & _).
  destruct (C41_documented_file ord content L El ND G PF) as (fs & F & V).
  assert (K : forall v, answers (slugs content) v -> (v = true -> realizable (file_game L fs)) ->
     (v = false -> forall f, exists x, ~ objective (file_game L fs) (play (file_game L fs) f x)) -> fuzzTest slugs aisy content = if v then Plus else Minus).
  { intros v HA P1 P2. destruct (C93_test slugs aisy n ds content rest v E HA) as (L' & fs' & c' & El' & F' & EC' & H).
    rewrite EC in EC'. injection EC' as <-. specialize (H R). rewrite El in El'. injection El' as <-.
    assert (EG : file_game L fs' = file_game L fs).
    { apply same_game. apply (formulas_unique L fs' fs ND); auto. now apply formulas_loosen. }
    rewrite EG in H. destruct H as [[X Y]|[X Y]]; destruct v; auto.
    - destruct X as [f X]. destruct (P2 eq_refl f) as [x N]. elim N. apply X.
    - destruct (P1 eq_refl) as [f Z]. destruct (X f) as [x N]. elim N. apply Z. }
  destruct V as [[V X]|[V X]].
  - rewrite (K true); auto. discriminate.
  - rewrite (K false); auto. discriminate.
Qed.
Print Assumptions C93_passes.

(** Random numbers for a specification with two inputs and two outputs: a buffer among the
    assumptions, and two guarantees. *)
Definition fuzzNumbers : list nat :=
  [1;  4; 1;  1; 3; 4; 2; 3; 2; 0; 3; 1;   3; 6;   0;
   1;  0; 3; 0;   0;
   0;
   1;  1; 3; 0; 0; 3; 7;   1; 3; 6;   0;   42]%nat.
Definition fuzzText : string := String.concat nl
  ["[INPUT]"; "in0"; "in1"; ""; "[OUTPUT]"; "out0"; "out1"; ""; "[ENV_INIT]"; "! in0"; ""; "[ENV_TRANS]"; "$ 2 & in0' | out0 ! in1 ? 0"; "";
   "[SYS_INIT]"; ""; "[SYS_TRANS]"; "& in0 ! out1'"; "out0'"; ""; ""].
Example C93_example : specification 2 fuzzNumbers = GOk fuzzText [42%nat] /\ executeFile exOrd fuzzText = POk Unrealizable /\
  specification 2 [1]%nat = GMore /\
  specification 2 [0; 0; 0; 0]%nat = GOk (String.concat nl
    ["[INPUT]"; "in0"; "in1"; ""; "[OUTPUT]"; "out0"; "out1"; ""; "[ENV_INIT]"; ""; "[ENV_TRANS]"; ""; "[SYS_INIT]"; ""; "[SYS_TRANS]"; ""; ""]) [].
Proof. repeat split; vm_compute; reflexivity. Qed.

(** The hypotheses of the theorems on the test hold for this specification with any program that answers 20 for it. *)
Example C93_test_example : exists slugs aisy circuit,
  answers (slugs fuzzText) false /\ aigMain fuzzText = TOk circuit /\ right_for aisy circuit /\
  fuzzOnce slugs aisy 2 fuzzNumbers = GOk Minus [42%nat] /\
  fuzzOnce (fun _ => (["RESULT: Specification is realizable."], 0%Z)) aisy 2 fuzzNumbers = GOk AisySaysUnrealizable [42%nat] /\
  fuzzOnce (fun _ => (["Error"], 0%Z)) aisy 2 fuzzNumbers = GOk NoResult [42%nat].
Proof.
  destruct C93_example as (E & V & _).
  destruct (specification_spec _ _ _ _ E) as (L & El & ND & G & PF & SO & SB & EI & EO).
  destruct (C78_same_verdict exOrd fuzzText L El ND G PF SO SB) as (lines & H1 & _ & H3).
  { intros w Hw. rewrite EI in Hw. apply in_map_iff in Hw. destruct Hw as (i & <- & _). reflexivity. }
  exists (fun _ => (["SLUGS"; "RESULT: Specification is unrealizable. "], 0%Z)), (fun _ => Some 20%Z), lines.
  split.
  { split; [reflexivity|]. exists ["SLUGS"], "RESULT: Specification is unrealizable. ", []. split; [reflexivity|]. split; [reflexivity|].
    intros x b [<-|[]]. destruct b; vm_compute; discriminate. }
  split; [exact H1|]. split.
  { intros M A names T. destruct (H3 M A names T) as [V1 _]. split; [|reflexivity]. intros R. apply V1 in R. congruence. }
  unfold fuzzOnce. rewrite E. cbn [gbind]. unfold fuzzTest. rewrite H1. repeat split.
Qed.
