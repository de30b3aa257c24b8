(** * Proofs: derivation trees, readings of token sequences, and the cleaned trees (translators for RATSY and LTLMop) *)

From Coq Require Import String Ascii List Bool Arith NArith ZArith Lia.
From Verif Require Import FormulaSpec LtlSpec LtlTables StructParse Ltl LtlItems LtlParseProofs.
Import ListNotations.
Local Open Scope string_scope.

(** ** The formula of a derivation tree *)
Definition unopOf (t : ptree) : option (ltl -> ltl) :=
  match t with
  | Node "UnaryTemporalOperator" [Node C _] =>
      if String.eqb C "NotOperator" then Some LNot else if String.eqb C "NextOperator" then Some LNext
      else if String.eqb C "FinallyOperator" then Some LFinally else if String.eqb C "GloballyOperator" then Some LGlobally else None
  | _ => None
  end.
Definition weakOf (t : ptree) : option bool :=
  match t with
  | Node "BinaryTemporalOperator" [Node C _] =>
      if String.eqb C "UntilOperator" then Some false else if String.eqb C "WeakUntilOperator" then Some true else None
  | _ => None
  end.
Fixpoint fmlOf (t : ptree) : option ltl :=
  match t with
  | Leaf (k, x) =>
      if String.eqb k "TRUE" then Some LTrue else if String.eqb k "FALSE" then Some LFalse else None
  | Node X [a] =>
      if String.eqb X "Assignment" then
        match a with Leaf (_, x) => Some (LAtom x None) | _ => None end
      else if existsb (String.eqb X) ["Biimplication"; "Implication"; "Xor"; "Disjunction"; "Conjunction";
                                 "BinaryTemporalFormula"; "UnaryFormula"; "AtomicFormula"]
      then fmlOf a else None
  | Node X [o; a] =>
      if String.eqb X "Formula" then fmlOf o
      else
        match unopOf o, fmlOf a with
        | Some o, Some a => if String.eqb X "UnaryFormula" then Some (o a) else None
        | _, _ => None
        end
  | Node X [a; o; b] =>
      if String.eqb X "Brackets" then fmlOf o
      else if String.eqb X "Assignment" then
        match a, b with Leaf (_, x), Leaf (v, _) => Some (LAtom x (Some (negb (String.eqb v "0")))) | _, _ => None end
      else
        match fmlOf a, fmlOf b with
        | Some f, Some g =>
            if String.eqb X "Biimplication" then Some (LBiimp f g)
            else if String.eqb X "Implication" then Some (LImp f g)
            else if String.eqb X "Xor" then Some (LXor f g)
            else if String.eqb X "Disjunction" then Some (LOr f g)
            else if String.eqb X "Conjunction" then Some (LAnd f g)
            else if String.eqb X "BinaryTemporalFormula" then option_map (fun w => LUntil w f g) (weakOf o)
            else None
        | _, _ => None
        end
  | Node _ _ => None
  end.

(** ** The cleaned trees of formulas *)
Inductive unary : string -> (ltl -> ltl) -> Prop :=
| u_not : unary "NotOperator" LNot
| u_next : unary "NextOperator" LNext
| u_finally : unary "FinallyOperator" LFinally
| u_globally : unary "GloballyOperator" LGlobally.
Inductive binary : string -> (ltl -> ltl -> ltl) -> Prop :=
| b_and : binary "Conjunction" LAnd
| b_or : binary "Disjunction" LOr
| b_xor : binary "Xor" LXor
| b_imp : binary "Implication" LImp
| b_biimp : binary "Biimplication" LBiimp.
Inductive repr : ltree -> ltl -> Prop :=
| r_true x : repr (TLeaf ("TRUE", x)) LTrue
| r_false x : repr (TLeaf ("FALSE", x)) LFalse
| r_id x : repr (TNode "Assignment" [TLeaf ("id", x)]) (LAtom x None)
| r_id0 x e v : repr (TNode "Assignment" [TLeaf ("id", x); TLeaf e; TLeaf ("0", v)]) (LAtom x (Some false))
| r_id1 x e v : repr (TNode "Assignment" [TLeaf ("id", x); TLeaf e; TLeaf ("1", v)]) (LAtom x (Some true))
| r_unary X o cs t f : unary X o -> repr t f -> repr (TNode "UnaryFormula" [TNode X cs; t]) (o f)
| r_binary X c t u f g : binary X c -> repr t f -> repr u g -> repr (TNode X [t; u]) (c f g)
| r_until w o t u f g : repr t f -> repr u g -> repr (TNode "BinaryTemporalFormula" [t; o; u]) (LUntil w f g).

(** Tokens that tokenize can produce. *)
Definition okTok (t : token) : Prop := fst t = "id" \/ snd t = "".

Inductive kind : Type :=
| KTop
| KFml (l : nat)
| KUn
| KTemp
| KBin (l : nat) (c : ltl -> ltl -> ltl)
| KOp (tss : list (list token))
| KTerm.
Definition kinds : list (string * kind) := [
  ("Formula", KTop); ("Biimplication", KFml 7); ("Implication", KFml 6); ("Xor", KFml 5); ("Disjunction", KFml 4); ("Conjunction", KFml 3);
  ("BinaryTemporalFormula", KFml 2); ("UnaryFormula", KFml 1); ("AtomicFormula", KFml 0); ("Brackets", KFml 0);
  ("Assignment", KFml 0);
  ("UnaryTemporalOperator", KUn); ("BinaryTemporalOperator", KTemp);
  ("ConjunctionOperator", KBin 3 LAnd); ("DisjunctionOperator", KBin 4 LOr); ("XorOperator", KBin 5 LXor);
  ("ImplicationOperator", KBin 6 LImp); ("BiimplicationOperator", KBin 7 LBiimp);
  ("UntilOperator", KOp [syms ["U"]]); ("WeakUntilOperator", KOp [syms ["W"]]);
  ("FinallyOperator", KOp [syms ["<"; ">"]; syms ["F"]]); ("NextOperator", KOp [syms ["("; ")"]; syms ["next"]; syms ["X"]]);
  ("GloballyOperator", KOp [syms ["["; "]"]; syms ["G"]]); ("NotOperator", KOp [syms ["!"]; syms ["~"]])].
Definition kindOf (X : string) : kind := match find (fun e => String.eqb (fst e) X) kinds with Some e => snd e | None => KTerm end.

Definition means (X : string) (t : ptree) : Prop :=
  Forall okTok (yield t) ->
  match kindOf X with
  | KTop => exists f r e ts, fmlOf t = Some f /\ clean_tree t = Some (TNode "Formula" [r; TLeaf e]) /\ repr r f /\
      yield t = (ts ++ [sym ";"])%list /\ formula 7 ts f
  | KFml l => exists f r, fmlOf t = Some f /\ clean_tree t = Some r /\ repr r f /\ formula l (yield t) f
  | KUn => exists o Y cs, unopOf t = Some o /\ clean_tree t = Some (TNode Y cs) /\ unary Y o /\ prefixed (yield t) o
  | KTemp => exists w r, weakOf t = Some w /\ clean_tree t = Some r /\ infixed 2 (yield t) (LUntil w)
  | KBin l c => infixed l (yield t) c
  | KOp tss => (exists cs, t = Node X cs) /\ (exists ds, clean_tree t = Some (TNode X ds)) /\ In (yield t) tss
  | KTerm => exists x, t = Leaf (X, x)
  end.

Ltac kk H := match type of H with context [kindOf ?X] => let k := eval vm_compute in (kindOf X) in change (kindOf X) with k in H end; cbv beta iota in H.

Lemma tok_text k x : okTok (k, x) -> String.eqb k "id" = false -> x = "".
Proof. intros [H|H] E; cbn in *; auto. subst k. discriminate. Qed.

Lemma term_kind k : isTerm k = true -> kindOf k = KTerm.
Proof.
  intros H. apply existsb_str in H.
  assert (O : forallb (fun k => match kindOf k with KTerm => true | _ => false end) terminals = true) by (vm_compute; reflexivity).
  rewrite forallb_forall in O. specialize (O k H). destruct (kindOf k); auto; discriminate.
Qed.

Ltac leafText := repeat match goal with
  | H : means ?X ?t, F : Forall okTok (yield ?t) |- _ => specialize (H F); kk H
  | H : exists x, ?t = Leaf (?k, x) |- _ => let x := fresh "x" in destruct H as (x & ->)
  | F : Forall okTok (yield (Leaf (?k, ?x))) |- _ => is_var x;
      let E := fresh "E" in assert (E : x = "") by (apply (tok_text k); [inversion F; assumption|reflexivity]); subst x
  end.

Ltac peel p k := lazymatch k with O => idtac | S ?k' => destruct p as [|p]; [|peel p k'] end.

Lemma means_sound :
  (forall X t, deriv X t -> means X t) /\ (forall Xs ts, derivs Xs ts -> Forall2 means Xs ts).
Proof.
  apply deriv_mut.
  - intros k x H F. rewrite (term_kind k H). eauto.
  - intros p A rhs ts Hp HP _ IH F. cbn [yield] in F.
    peel p 54. all: try (exfalso; unfold startProduction in Hp; lia).
    all: cbn [nth_error productions] in HP; injection HP as <- <-;
      repeat match goal with H : Forall2 means _ _ |- _ => inversion H; clear H; subst end;
      cbn [flat_map] in F; repeat match goal with H : Forall okTok (_ ++ _)%list |- _ => apply Forall_app in H; destruct H end;
      match goal with |- context [kindOf ?X] => let k := eval vm_compute in (kindOf X) in change (kindOf X) with k end; cbv beta iota;
      leafText.
    all: cbn [yield flat_map app]; rewrite ?app_nil_r.
    all: try (match goal with H : exists f r, fmlOf ?t = Some f /\ clean_tree ?t = Some r /\ repr r f /\ formula ?l _ f |- exists f r, _ /\ _ /\ _ /\ formula ?l _ f =>
            destruct H as (f & r & E & C & R & G); exists f, r; split; [exact E|split; [exact C|split; [exact R|exact G]]] end; fail).
    all: try (match goal with H : exists f r, fmlOf ?t = Some f /\ clean_tree ?t = Some r /\ repr r f /\ formula ?l _ f |- exists f r, _ /\ _ /\ _ /\ formula (S ?l) _ f =>
            destruct H as (f & r & E & C & R & G); exists f, r; split; [exact E|split; [exact C|split; [exact R|apply f_up; [lia|exact G]]]] end; fail).
    all: try (match goal with |- (exists cs, _) /\ (exists ds, _) /\ In _ _ => split; [eexists; reflexivity|split; [eexists; reflexivity|cbn; auto]] end; fail).
    all: try (match goal with |- infixed _ _ _ => constructor; cbn; auto end; fail).
    all: repeat match goal with
      | H : exists f r, fmlOf _ = Some f /\ _ |- _ => let f := fresh "f" in let r := fresh "r" in let E := fresh "E" in let C := fresh "C" in
          let R := fresh "R" in let G := fresh "G" in destruct H as (f & r & E & C & R & G)
      | H : exists w r, weakOf _ = Some w /\ _ |- _ => let f := fresh "f" in let r := fresh "r" in let E := fresh "E" in let C := fresh "C" in
          let G := fresh "G" in destruct H as (f & r & E & C & G)
      | H : exists o Y cs, unopOf _ = Some o /\ _ |- _ => let f := fresh "f" in let r := fresh "r" in let cs := fresh "cs" in let E := fresh "E" in let C := fresh "C" in
          let R := fresh "R" in let G := fresh "G" in destruct H as (f & r & cs & E & C & R & G)
      | H : (exists cs, ?t = Node _ cs) /\ (exists ds, _) /\ In (yield ?t) _ |- _ => let cs := fresh "cs" in let ds := fresh "ds" in let C := fresh "C" in let Y := fresh "Y" in
          destruct H as ((cs & ->) & (ds & C) & Y)
      end.
    (* binary *)
    all: try (match goal with H : infixed _ _ ?c, f : ltl, g : ltl |- _ => idtac end;
       eexists; eexists; split; [cbn [fmlOf]; rewrite ?E, ?E0, ?E1; reflexivity|split; [cbn [clean_tree]; cbn; rewrite ?C, ?C0, ?C1; reflexivity|
       split; [constructor; auto; constructor|now apply f_binary]]]; fail).
    (* unary *)
    all: try (match goal with U : unary _ _ |- _ => idtac end;
       eexists; eexists; split; [cbn [fmlOf]; rewrite ?E, ?E0, ?E1; reflexivity|split; [cbn [clean_tree]; cbn; rewrite ?C, ?C0, ?C1; reflexivity|
       split; [now constructor|now constructor]]]; fail).
    (* brackets, constants, assignments *)
    all: try (match goal with |- exists f r, _ /\ _ /\ _ /\ formula 0 _ f => idtac end;
       eexists; eexists; split; [cbn; rewrite ?E, ?E0, ?E1; reflexivity|split; [cbn; rewrite ?C, ?C0, ?C1; reflexivity|
       split; [first [assumption|constructor]|now constructor]]]; fail).
    (* operators *)
    all: try (match goal with |- exists o Y cs, _ /\ _ => idtac end; eexists; eexists; eexists; split; [reflexivity|split; [exact C|split; [constructor|]]];
       match goal with Y : In ?l _ |- _ => repeat (destruct Y as [Y|Y]; [rewrite <- Y; constructor; cbn; auto; fail|]); contradiction end; fail).
    all: try (match goal with |- exists w r, weakOf _ = _ /\ _ => idtac end; eexists; eexists; split; [reflexivity|split; [exact C|]];
       match goal with Y : In ?l _ |- _ => repeat (destruct Y as [Y|Y]; [rewrite <- Y; constructor; cbn; auto; fail|]); contradiction end; fail).
    all: try (match goal with |- exists f r e ts, _ => idtac end; eexists; eexists; eexists; eexists; split; [exact E|split; [cbn; rewrite C; reflexivity|split; [exact R|split; [reflexivity|exact G]]]]; fail).
  - constructor.
  - intros. constructor; auto.
Qed.
