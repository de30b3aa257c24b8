(** * Proofs: derivation trees and the readings of token sequences; tokens of lines *)

From Coq Require Import String Ascii List Bool Arith NArith ZArith Lia.
From Verif Require Import FormulaSpec StructuredSpec StructGrammar Structured StructTables StructParse StructItems StructParseProofs.
Import ListNotations.
Local Open Scope string_scope.

(** Tokens that tokenize can produce. *)
Definition okTok (t : token) : Prop :=
  (fst t = "boolID" \/ fst t = "numID" \/ fst t = "numeral" \/ snd t = "") /\ fst t <> "SubtractionOperator".

Inductive kind : Type :=
| KFml (l : nat)
| KNum (l : nat)
| KCmp
| KUn
| KTemp
| KBin (l : nat) (c : sfml -> sfml -> sfml)
| KOp (tss : list (list token))
| KTerm.
Definition kinds : list (string * kind) := [
  ("Formula", KFml 7); ("Biimplication", KFml 7); ("Implication", KFml 6); ("Xor", KFml 5); ("Disjunction", KFml 4); ("Conjunction", KFml 3);
  ("BinaryTemporalFormula", KFml 2); ("UnaryFormula", KFml 1); ("AtomicFormula", KFml 0); ("Brackets", KFml 0); ("BooleanAtomicFormula", KFml 0);
  ("Assignment", KFml 0); ("CalculationSubformula", KFml 0);
  ("NumberExpression", KNum 3); ("MultiplicativeNumber", KNum 2); ("LeastSignificantBitOverwriteExpression", KNum 1);
  ("AtomicNumberExpression", KNum 0); ("NumberBrackets", KNum 0);
  ("NumberComparisonOperator", KCmp); ("UnaryTemporalOperator", KUn); ("BinaryTemporalOperator", KTemp);
  ("ConjunctionOperator", KBin 3 SAnd); ("DisjunctionOperator", KBin 4 SOr); ("XorOperator", KBin 5 SXor);
  ("ImplicationOperator", KBin 6 SImp); ("BiimplicationOperator", KBin 7 SBiimp);
  ("UntilOperator", KOp [syms ["U"]]); ("WeakUntilOperator", KOp [syms ["W"]]);
  ("GreaterOperator", KOp [syms [">"]]); ("SmallerOperator", KOp [syms ["<"]]); ("EqualOperator", KOp [syms ["="]]);
  ("UnequalOperator", KOp [syms ["!"; "="]]); ("SmallerEqualOperator", KOp [syms ["<"; "="]]); ("GreaterEqualOperator", KOp [syms [">"; "="]]);
  ("AdditionOperator", KOp [syms ["+"]]); ("MultiplicationOperator", KOp [syms ["*"]]);
  ("LeastSignificantBitOverwriteOperator", KOp [syms ["LEASTSIGNIFICANTBITOVERWRITES"]]);
  ("FinallyOperator", KOp [syms ["<"; ">"]; syms ["F"]]); ("NextOperator", KOp [syms ["("; ")"]; syms ["next"]; syms ["X"]]);
  ("GloballyOperator", KOp [syms ["["; "]"]; syms ["G"]]); ("NotOperator", KOp [syms ["!"]; syms ["~"]])].
Definition kindOf (X : string) : kind := match find (fun e => String.eqb (fst e) X) kinds with Some e => snd e | None => KTerm end.

Definition means (X : string) (t : ptree) : Prop :=
  Forall okTok (yield t) ->
  match kindOf X with
  | KFml l => exists f, fmlOf t = Some f /\ formula l (yield t) f
  | KNum l => exists a, numOf t = Some a /\ number l (yield t) a
  | KCmp => exists c, comparatorOf t = Some c /\ comparing (yield t) c
  | KUn => exists o, unopOf t = Some o /\ prefixed (yield t) o
  | KTemp => exists w, weakOf t = Some w /\ infixed 2 (yield t) (STemporal w)
  | KBin l c => infixed l (yield t) c
  | KOp tss => (exists cs, t = Node X cs) /\ In (yield t) tss
  | KTerm => exists x, t = Leaf (X, x)
  end.

Ltac kk H := match type of H with context [kindOf ?X] => let k := eval vm_compute in (kindOf X) in change (kindOf X) with k in H end; cbv beta iota in H.

Lemma tok_text k x : okTok (k, x) -> existsb (String.eqb k) ["boolID"; "numID"; "numeral"] = false -> x = "".
Proof.
  intros [[H|[H|[H|H]]] _] E; cbn in *; auto; subst k; cbn in E; discriminate.
Qed.

Lemma term_kind k : isTerm k = true -> kindOf k = KTerm.
Proof.
  intros H. apply existsb_str in H.
  assert (O : forallb (fun k => match kindOf k with KTerm => true | _ => false end) terminals = true) by (vm_compute; reflexivity).
  rewrite forallb_forall in O. specialize (O k H). destruct (kindOf k); auto; discriminate.
Qed.

Ltac leafText := repeat match goal with
  | H : means ?X ?t, F : Forall okTok (yield ?t) |- _ => specialize (H F); kk H
  | H : exists x, ?t = Leaf (?k, x) |- _ => let x := fresh "x" in destruct H as (x & ->)
  | F : Forall okTok (yield (Leaf (?k, ?x))) |- _ => is_var x;
      let E := fresh "E" in assert (E : x = "") by (apply (tok_text k); [inversion F; assumption|reflexivity]); subst x
  end.

Ltac peel p k := lazymatch k with O => idtac | S ?k' => destruct p as [|p]; [|peel p k'] end.

Lemma means_sound :
  (forall X t, deriv X t -> means X t) /\ (forall Xs ts, derivs Xs ts -> Forall2 means Xs ts).
Proof.
  apply deriv_mut.
  - intros k x H F. rewrite (term_kind k H). eauto.
  - intros p A rhs ts Hp HP _ IH F. cbn [yield] in F.
    peel p 79. all: try (exfalso; unfold startProduction in Hp; lia).
    all: cbn [nth_error productions] in HP; injection HP as <- <-;
      repeat match goal with H : Forall2 means _ _ |- _ => inversion H; clear H; subst end;
      cbn [flat_map] in F; repeat match goal with H : Forall okTok (_ ++ _)%list |- _ => apply Forall_app in H; destruct H end;
      match goal with |- context [kindOf ?X] => let k := eval vm_compute in (kindOf X) in change (kindOf X) with k end; cbv beta iota;
      leafText.
    all: cbn [yield flat_map app]; rewrite ?app_nil_r.
    (* 0-18 *)
    all: try (match goal with H : exists f, fmlOf ?t = Some f /\ formula ?l _ f |- exists f, _ /\ formula ?l _ f =>
            destruct H as (f & E & G); exists f; split; [exact E|exact G] end; fail).
    all: try (match goal with H : exists f, fmlOf ?t = Some f /\ formula ?l _ f |- exists f, _ /\ formula (S ?l) _ f =>
            destruct H as (f & E & G); exists f; split; [exact E|apply f_up; [lia|exact G]] end; fail).
    all: try (match goal with H : exists f, numOf ?t = Some f /\ number ?l _ f |- exists f, _ /\ number ?l _ f =>
            destruct H as (f & E & G); exists f; split; [exact E|exact G] end; fail).
    all: try (match goal with H : exists f, numOf ?t = Some f /\ number ?l _ f |- exists f, _ /\ number (S ?l) _ f =>
            destruct H as (f & E & G); exists f; split; [exact E|apply n_up; [lia|exact G]] end; fail).
    all: try (match goal with |- (exists cs, _) /\ In _ _ => split; [eexists; reflexivity|cbn; auto] end; fail).
    all: try (match goal with |- infixed _ _ _ => constructor; cbn; auto end; fail).
    all: try (match goal with H1 : exists f, fmlOf ?t = Some f /\ _, H2 : infixed ?l _ ?c, H3 : exists f, fmlOf ?u = Some f /\ _ |- _ =>
            destruct H1 as (f & E & G), H3 as (f' & E' & G'); exists (c f f'); split; [cbn [fmlOf]; rewrite E, E'; reflexivity|now apply f_binary] end; fail).
    all: repeat match goal with
      | H : exists f, _ = Some f /\ _ |- _ => let f := fresh "f" in let E := fresh "E" in let G := fresh "G" in destruct H as (f & E & G)
      | H : (exists cs, ?t = Node _ cs) /\ In (yield ?t) _ |- _ => let cs := fresh "cs" in let Y := fresh "Y" in destruct H as [(cs & ->) Y]
      end.
    all: try (eexists; split; [cbn [fmlOf]; rewrite ?E, ?E0, ?E1; reflexivity|now apply f_binary]; fail).
    all: try (eexists; split; [cbn [fmlOf]; rewrite ?E, ?E0, ?E1; reflexivity|constructor; auto]; fail).
    all: try (eexists; split; [cbn [numOf]; rewrite ?E, ?E0, ?E1; reflexivity|constructor; auto]; fail).
    all: try (match goal with Y : In (yield (Node ?X ?c)) [_] |- exists a, numOf _ = _ /\ _ => destruct Y as [Y|[]]; rewrite <- Y; cbn [app];
       eexists; split; [cbn [numOf]; rewrite E, E0; reflexivity|first [apply n_add|apply n_mul|apply n_over]; auto] end; fail).
    all: try (match goal with F : Forall okTok (yield (Leaf ("SubtractionOperator", ""))) |- _ => exfalso; inversion F as [|? ? O]; destruct O as [_ O]; now apply O end; fail).
    all: try (eexists; split; [reflexivity|]; cbn [yield flat_map app] in *;
       match goal with Y : In ?l _ |- _ => repeat (destruct Y as [Y|Y]; [rewrite <- Y; constructor; cbn; auto; fail|]); contradiction end; fail).
  - constructor.
  - intros. constructor; auto.
Qed.
