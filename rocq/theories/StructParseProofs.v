(** * Proofs: the tables of Parser.py recognize exactly the grammar

    The tables are validated against LR(1) items (cf. Jourdan, Pottier, Leroy: Validating LR(1)
    Parsers, ESOP 2012).  The grammar has no empty productions. *)

From Coq Require Import String Ascii List Bool Arith NArith ZArith Lia.
From Verif Require Import FormulaSpec StructuredSpec StructGrammar Structured StructTables StructParse StructItems.
Import ListNotations.
Local Open Scope string_scope.

(** grammar.wi, and a production for the start symbol. *)
Definition startProduction : nat := 79.
Definition productions : list (string * list string) := [
  ("Formula", ["Biimplication"]);
  ("Biimplication", ["Implication"]);
  ("Biimplication", ["Biimplication"; "BiimplicationOperator"; "Implication"]);
  ("Implication", ["Xor"]);
  ("Implication", ["Implication"; "ImplicationOperator"; "Xor"]);
  ("Xor", ["Disjunction"]);
  ("Xor", ["Xor"; "XorOperator"; "Disjunction"]);
  ("Disjunction", ["Conjunction"]);
  ("Disjunction", ["Disjunction"; "DisjunctionOperator"; "Conjunction"]);
  ("Conjunction", ["BinaryTemporalFormula"]);
  ("Conjunction", ["Conjunction"; "ConjunctionOperator"; "BinaryTemporalFormula"]);
  ("BinaryTemporalFormula", ["UnaryFormula"]);
  ("BinaryTemporalFormula", ["BinaryTemporalFormula"; "BinaryTemporalOperator"; "UnaryFormula"]);
  ("UnaryFormula", ["AtomicFormula"]);
  ("UnaryFormula", ["UnaryTemporalOperator"; "UnaryFormula"]);
  ("AtomicFormula", ["FALSE"]);
  ("AtomicFormula", ["TRUE"]);
  ("AtomicFormula", ["Brackets"]);
  ("AtomicFormula", ["BooleanAtomicFormula"]);
  ("Brackets", ["("; "Biimplication"; ")"]);
  ("Brackets", ["["; "Biimplication"; "]"]);
  ("BooleanAtomicFormula", ["Assignment"]);
  ("BooleanAtomicFormula", ["CalculationSubformula"]);
  ("Assignment", ["boolID"]);
  ("CalculationSubformula", ["NumberExpression"; "NumberComparisonOperator"; "NumberExpression"]);
  ("NumberExpression", ["MultiplicativeNumber"]);
  ("NumberExpression", ["MultiplicativeNumber"; "AdditionOperator"; "NumberExpression"]);
  ("NumberExpression", ["MultiplicativeNumber"; "SubtractionOperator"; "NumberExpression"]);
  ("MultiplicativeNumber", ["LeastSignificantBitOverwriteExpression"]);
  ("MultiplicativeNumber", ["LeastSignificantBitOverwriteExpression"; "MultiplicationOperator"; "LeastSignificantBitOverwriteExpression"]);
  ("LeastSignificantBitOverwriteExpression", ["AtomicNumberExpression"]);
  ("LeastSignificantBitOverwriteExpression", ["AtomicNumberExpression"; "LeastSignificantBitOverwriteOperator"; "AtomicNumberExpression"]);
  ("AtomicNumberExpression", ["numID"]);
  ("AtomicNumberExpression", ["numeral"]);
  ("AtomicNumberExpression", ["NumberBrackets"]);
  ("NumberBrackets", ["("; "NumberExpression"; ")"]);
  ("BinaryTemporalOperator", ["UntilOperator"]);
  ("BinaryTemporalOperator", ["WeakUntilOperator"]);
  ("UntilOperator", ["U"]);
  ("WeakUntilOperator", ["W"]);
  ("ImplicationOperator", ["-"; "-"; ">"]);
  ("ImplicationOperator", ["-"; ">"]);
  ("BiimplicationOperator", ["<"; "-"; "-"; ">"]);
  ("BiimplicationOperator", ["<"; "-"; ">"]);
  ("DisjunctionOperator", ["\"; "/"]);
  ("DisjunctionOperator", ["|"]);
  ("DisjunctionOperator", ["|"; "|"]);
  ("ConjunctionOperator", ["/"; "\"]);
  ("ConjunctionOperator", ["&"]);
  ("ConjunctionOperator", ["&"; "&"]);
  ("NumberComparisonOperator", ["GreaterOperator"]);
  ("NumberComparisonOperator", ["EqualOperator"]);
  ("NumberComparisonOperator", ["UnequalOperator"]);
  ("NumberComparisonOperator", ["GreaterEqualOperator"]);
  ("NumberComparisonOperator", ["SmallerEqualOperator"]);
  ("NumberComparisonOperator", ["SmallerOperator"]);
  ("GreaterOperator", [">"]);
  ("SmallerOperator", ["<"]);
  ("EqualOperator", ["="]);
  ("UnequalOperator", ["!"; "="]);
  ("SmallerEqualOperator", ["<"; "="]);
  ("GreaterEqualOperator", [">"; "="]);
  ("AdditionOperator", ["+"]);
  ("MultiplicationOperator", ["*"]);
  ("LeastSignificantBitOverwriteOperator", ["LEASTSIGNIFICANTBITOVERWRITES"]);
  ("XorOperator", ["^"]);
  ("UnaryTemporalOperator", ["FinallyOperator"]);
  ("UnaryTemporalOperator", ["NextOperator"]);
  ("UnaryTemporalOperator", ["GloballyOperator"]);
  ("UnaryTemporalOperator", ["NotOperator"]);
  ("FinallyOperator", ["<"; ">"]);
  ("FinallyOperator", ["F"]);
  ("NextOperator", ["("; ")"]);
  ("NextOperator", ["next"]);
  ("NextOperator", ["X"]);
  ("GloballyOperator", ["["; "]"]);
  ("GloballyOperator", ["G"]);
  ("NotOperator", ["!"]);
  ("NotOperator", ["~"]);
  ("S", ["Formula"])].


Definition isTerm (X : string) : bool := existsb (String.eqb X) terminals.
Definition itemsOf (s : nat) : list (nat * nat * nat) := nth s itemTable [].
Definition lookahead (l : nat) : list string := nth l lookaheads [].
Definition subset (L M : list string) : bool := forallb (fun a => existsb (String.eqb a) M) L.

Lemma subset_incl L M : subset L M = true -> incl L M.
Proof.
  unfold subset. rewrite forallb_forall. intros H a Ha. specialize (H a Ha). apply existsb_exists in H.
  destruct H as (b & Hb & E). apply String.eqb_eq in E. now subst.
Qed.
Lemma existsb_str w l : existsb (String.eqb w) l = true <-> In w l.
Proof.
  rewrite existsb_exists. split.
  - intros (x & Hx & E). apply String.eqb_eq in E. now subst.
  - intros H. exists w. split; auto. apply String.eqb_refl.
Qed.

Definition item (s p d : nat) (L : list string) : Prop :=
  exists l, In (p, d, l) (itemsOf s) /\ incl L (lookahead l).
Definition hasItem (s p d : nat) (L : list string) : bool :=
  existsb (fun i => match i with (p', d', l) => Nat.eqb p p' && Nat.eqb d d' && subset L (lookahead l) end) (itemsOf s).
Lemma hasItem_item s p d L : hasItem s p d L = true -> item s p d L.
Proof.
  unfold hasItem. rewrite existsb_exists. intros ([[p' d'] l] & H & E). apply andb_true_iff in E. destruct E as [E E2].
  apply andb_true_iff in E. destruct E as [E0 E1]. apply Nat.eqb_eq in E0, E1. subst. exists l. split; auto. now apply subset_incl.
Qed.
Lemma item_weaken s p d L M : item s p d L -> incl M L -> item s p d M.
Proof. intros (l & H & I) HM. exists l. split; auto. intros a Ha. auto. Qed.

Definition firstOf (X : string) : list string :=
  if isTerm X then [X] else match find (fun e => String.eqb (fst e) X) firstTable with Some e => snd e | None => [] end.
Definition firstSeq (rest L : list string) : list string := match rest with [] => L | Y :: _ => firstOf Y end.

Definition isNone {A} (o : option A) : bool := match o with None => true | _ => false end.
(** Conditions on the item (p, d, l) of state s. *)
Definition okItem (s : nat) (i : nat * nat * nat) : bool :=
  match i with
  | (p, d, l) =>
      match nth_error productions p with
      | None => false
      | Some (A, rhs) =>
          match skipn d rhs with
          | [] =>
              Nat.eqb d (length rhs) &&
              (if Nat.eqb p startProduction then
                 match entry shiftTable s EOF with Some s' => Nat.eqb s' haltingState | None => false end
               else forallb (fun a => isNone (entry shiftTable s a) &&
                      match entry reduceTable s a with Some (B, n) => String.eqb B A && Nat.eqb n d | None => false end) (lookahead l))
          | X :: rest =>
              if isTerm X then
                match entry shiftTable s X with Some s' => hasItem s' p (S d) (lookahead l) | None => false end
              else
                match entry gotoTable s X with Some s' => hasItem s' p (S d) (lookahead l) | None => false end &&
                forallb (fun q => match nth_error productions q with
                                  | Some (B, _) => if String.eqb B X then hasItem s q 0 (firstSeq rest (lookahead l)) else true
                                  | None => false
                                  end) (seq 0 startProduction)
          end
      end
  end.
Lemma items_ok : forallb (fun s => forallb (okItem s) (itemsOf s)) (seq 0 haltingState) = true.
Proof. vm_compute. reflexivity. Qed.

Lemma item_lt s i : In i (itemsOf s) -> s < haltingState.
Proof.
  intros H. destruct (Nat.lt_ge_cases s haltingState) as [L|G]; auto. exfalso.
  assert (E : itemsOf s = []).
  { unfold itemsOf. destruct (Nat.eq_dec s haltingState) as [->|N]; [reflexivity|]. apply nth_overflow.
    replace (length itemTable) with (S haltingState) by reflexivity. lia. }
  rewrite E in H. contradiction.
Qed.
Lemma item_ok s i : In i (itemsOf s) -> okItem s i = true.
Proof.
  intros H. pose proof items_ok as O. rewrite forallb_forall in O. specialize (O s).
  assert (Hs : In s (seq 0 haltingState)) by (apply in_seq; apply item_lt in H; unfold haltingState in *; lia).
  specialize (O Hs). rewrite forallb_forall in O. auto.
Qed.

Lemma skipn_nth {A} (l : list A) d x : nth_error l d = Some x -> skipn d l = x :: skipn (S d) l.
Proof. revert d. induction l as [|y l IH]; intros [|d] H; try discriminate; cbn in *; [now injection H as ->|]. now apply IH. Qed.

Lemma item_shift s p d L A rhs X : item s p d L -> nth_error productions p = Some (A, rhs) -> nth_error rhs d = Some X ->
  isTerm X = true -> exists s', entry shiftTable s X = Some s' /\ item s' p (S d) L.
Proof.
  intros (l & H & I) HP HX HT. apply item_ok in H. unfold okItem in H. rewrite HP, (skipn_nth _ _ _ HX), HT in H.
  destruct (entry shiftTable s X) as [s'|]; [|discriminate]. exists s'. split; auto. apply hasItem_item in H. eapply item_weaken; eauto.
Qed.
Lemma item_goto s p d L A rhs X : item s p d L -> nth_error productions p = Some (A, rhs) -> nth_error rhs d = Some X ->
  isTerm X = false -> exists s', entry gotoTable s X = Some s' /\ item s' p (S d) L.
Proof.
  intros (l & H & I) HP HX HT. apply item_ok in H. unfold okItem in H. rewrite HP, (skipn_nth _ _ _ HX), HT in H.
  apply andb_true_iff in H. destruct H as [H _].
  destruct (entry gotoTable s X) as [s'|]; [|discriminate]. exists s'. split; auto. apply hasItem_item in H. eapply item_weaken; eauto.
Qed.
Lemma item_close s p d L A rhs X q gam : item s p d L -> nth_error productions p = Some (A, rhs) -> nth_error rhs d = Some X ->
  isTerm X = false -> q < startProduction -> nth_error productions q = Some (X, gam) -> item s q 0 (firstSeq (skipn (S d) rhs) L).
Proof.
  intros (l & H & I) HP HX HT Hq HQ. apply item_ok in H. unfold okItem in H. rewrite HP, (skipn_nth _ _ _ HX), HT in H.
  apply andb_true_iff in H. destruct H as [_ H]. rewrite forallb_forall in H. specialize (H q).
  rewrite HQ, String.eqb_refl in H. assert (Hs : In q (seq 0 startProduction)) by (apply in_seq; lia). specialize (H Hs).
  apply hasItem_item in H. eapply item_weaken; eauto. destruct (skipn (S d) rhs); cbn [firstSeq]; auto. apply incl_refl.
Qed.
Lemma item_reduce s p L A rhs a : item s p (length rhs) L -> nth_error productions p = Some (A, rhs) -> p <> startProduction -> In a L ->
  entry shiftTable s a = None /\ entry reduceTable s a = Some (A, length rhs).
Proof.
  intros (l & H & I) HP Hp Ha. apply item_ok in H. unfold okItem in H. rewrite HP, skipn_all in H.
  apply andb_true_iff in H. destruct H as [_ H]. apply Nat.eqb_neq in Hp. rewrite Hp in H. rewrite forallb_forall in H. specialize (H a (I a Ha)).
  apply andb_true_iff in H. destruct H as [H1 H2]. split; [destruct (entry shiftTable s a); [discriminate|auto]|].
  destruct (entry reduceTable s a) as [[B n]|]; [|discriminate]. apply andb_true_iff in H2. destruct H2 as [H2 H3].
  apply String.eqb_eq in H2. apply Nat.eqb_eq in H3. now subst.
Qed.
Lemma item_accept s L : item s startProduction 1 L -> entry shiftTable s EOF = Some haltingState.
Proof.
  intros (l & H & I). apply item_ok in H. unfold okItem in H. change (nth_error productions startProduction) with (Some ("S", ["Formula"])) in H.
  cbn [skipn length Nat.eqb andb] in H. unfold startProduction in H at 1 2. rewrite Nat.eqb_refl in H.
  destruct (entry shiftTable s EOF) as [s'|]; [|discriminate]. apply Nat.eqb_eq in H. now subst.
Qed.

(** ** Derivation trees *)
Inductive deriv : string -> ptree -> Prop :=
| d_leaf k x : isTerm k = true -> deriv k (Leaf (k, x))
| d_node p A rhs ts : p < startProduction -> nth_error productions p = Some (A, rhs) -> derivs rhs ts -> deriv A (Node A ts)
with derivs : list string -> list ptree -> Prop :=
| ds_nil : derivs [] []
| ds_cons X Xs t ts : deriv X t -> derivs Xs ts -> derivs (X :: Xs) (t :: ts).
Scheme deriv_ind' := Induction for deriv Sort Prop
with derivs_ind' := Induction for derivs Sort Prop.
Combined Scheme deriv_mut from deriv_ind', derivs_ind'.

Fixpoint yield (t : ptree) : list token :=
  match t with Leaf t => [t] | Node _ ts => flat_map yield ts end.

(** Productions: nonterminals on the left, no empty right-hand sides, first symbols, ranks. *)
Definition rankOf (X : string) : nat := match find (fun e => String.eqb (fst e) X) rankTable with Some e => snd e | None => 0 end.
Definition okProduction (P : string * list string) : bool :=
  negb (isTerm (fst P)) &&
  match snd P with
  | [] => false
  | X :: Xs => subset (firstOf X) (firstOf (fst P)) && (Nat.leb (rankOf (fst P)) 10) &&
      match Xs with [] => isTerm X || Nat.ltb (rankOf X) (rankOf (fst P)) | _ => true end
  end.
Lemma productions_ok : forallb okProduction (firstn startProduction productions) = true.
Proof. vm_compute. reflexivity. Qed.
Lemma production_ok p P : p < startProduction -> nth_error productions p = Some P -> okProduction P = true.
Proof.
  intros Hp H. pose proof productions_ok as O. rewrite forallb_forall in O. apply O.
  apply nth_error_In with (n := p). rewrite <- H. clear H. revert Hp. generalize productions as l, startProduction as n.
  intros l. revert p. induction l as [|x l IH]; intros [|p] [|n] Hp; cbn; auto; try lia. apply IH. lia.
Qed.
Lemma left_nonterminal p A rhs : p < startProduction -> nth_error productions p = Some (A, rhs) -> isTerm A = false.
Proof. intros Hp H. apply production_ok in H; auto. apply andb_true_iff in H. destruct H as [H _]. cbn in H. now apply negb_true_iff in H. Qed.
Lemma right_nonempty p A rhs : p < startProduction -> nth_error productions p = Some (A, rhs) -> rhs <> [].
Proof. intros Hp H. apply production_ok in H; auto. unfold okProduction in H. cbn in H. destruct rhs; [rewrite andb_false_r in H|]; discriminate. Qed.

Lemma first_sound : (forall X t, deriv X t -> exists b rest, yield t = b :: rest /\ In (fst b) (firstOf X)) /\
  (forall Xs ts, derivs Xs ts -> forall X Xs', Xs = X :: Xs' -> exists b rest, flat_map yield ts = b :: rest /\ In (fst b) (firstOf X)).
Proof.
  apply deriv_mut.
  - intros k x H. exists (k, x), []. split; auto. unfold firstOf. rewrite H. now left.
  - intros p A rhs ts Hp HP Hd IH. pose proof (production_ok _ _ Hp HP) as O. unfold okProduction in O. cbn [fst snd] in O.
    destruct rhs as [|X rhs]; [rewrite andb_false_r in O; discriminate|]. destruct (IH X rhs eq_refl) as (b & rest & E & Hin).
    exists b, rest. split; auto. repeat (apply andb_true_iff in O; destruct O as [O ?]). apply andb_true_iff in H. destruct H as [H _].
    apply andb_true_iff in H. destruct H as [H _]. apply subset_incl in H. auto.
  - intros X Xs' E. discriminate.
  - intros X Xs t ts Hd IH Hds _ X0 Xs0 E. injection E as <- <-. destruct IH as (b & rest & E & Hin). cbn. rewrite E. cbn. eauto.
Qed.

(** ** Completeness: every derivation tree is found *)
Lemma loop_shift fuel b rest stack s s' : s <> haltingState -> entry shiftTable s (fst b) = Some s' ->
  parseLoop (S fuel) (b :: rest) stack s = parseLoop fuel rest ((s, Leaf b) :: stack) s'.
Proof. intros Hs H. apply Nat.eqb_neq in Hs. cbn [parseLoop]. now rewrite Hs, H. Qed.
Lemma loop_reduce fuel b rest stack s X n s0 t s' : s <> haltingState -> entry shiftTable s (fst b) = None ->
  entry reduceTable s (fst b) = Some (X, n) -> nth_error stack (n - 1) = Some (s0, t) -> entry gotoTable s0 X = Some s' ->
  parseLoop (S fuel) (b :: rest) stack s =
  parseLoop fuel (b :: rest) ((s0, Node X (rev (map snd (firstn n stack)))) :: skipn n stack) s'.
Proof. intros Hs H1 H2 H3 H4. apply Nat.eqb_neq in Hs. cbn [parseLoop]. now rewrite Hs, H1, H2, H3, H4. Qed.

Lemma item_running s p d L : item s p d L -> s <> haltingState.
Proof. intros (l & H & _). apply item_lt in H. lia. Qed.

Lemma completeness :
  (forall X t, deriv X t -> forall s p d A rhs L, item s p d L -> nth_error productions p = Some (A, rhs) -> nth_error rhs d = Some X ->
     forall (b : token) rest stack, In (fst b) (firstSeq (skipn (S d) rhs) L) ->
     exists s', item s' p (S d) L /\
       exists k, forall fuel, parseLoop (k + fuel) (yield t ++ b :: rest) stack s = parseLoop fuel (b :: rest) ((s, t) :: stack) s') /\
  (forall Xs ts, derivs Xs ts -> forall s q d B rhs L, item s q d L -> nth_error productions q = Some (B, rhs) -> skipn d rhs = Xs ->
     forall (b : token) rest stack, In (fst b) L ->
     exists s' fs, item s' q (d + length Xs) L /\ map snd fs = rev ts /\
       (ts <> [] -> exists t, nth_error fs (length fs - 1) = Some (s, t)) /\
       exists k, forall fuel, parseLoop (k + fuel) (flat_map yield ts ++ b :: rest) stack s = parseLoop fuel (b :: rest) (fs ++ stack)%list s').
Proof.
  apply deriv_mut.
  - intros k x HT s p d A rhs L HI HP HX b rest stack Hb.
    destruct (item_shift _ _ _ _ _ _ _ HI HP HX HT) as (s' & HS & HI'). exists s'. split; auto. exists 1. intros fuel.
    cbn [yield app plus]. apply loop_shift; auto. eapply item_running; eauto.
  - intros q X gam ts Hq HQ Hds IH s p d A rhs L HI HP HX b rest stack Hb.
    pose proof (left_nonterminal _ _ _ Hq HQ) as HT. pose proof (right_nonempty _ _ _ Hq HQ) as HN.
    pose proof (item_close _ _ _ _ _ _ _ _ _ HI HP HX HT Hq HQ) as HC.
    destruct (item_goto _ _ _ _ _ _ _ HI HP HX HT) as (s2 & HG & HI2).
    destruct (IH s q 0 X gam _ HC HQ eq_refl b rest stack Hb) as (s' & fs & HE & HM & HS & k & HK). cbn [plus] in HE.
    assert (LT : length ts = length gam) by (clear - Hds; induction Hds; cbn; auto).
    assert (LF : length fs = length gam) by (rewrite <- LT, <- (rev_length ts), <- HM, map_length; auto).
    destruct HS as (t0 & HS). { intros ->. destruct gam; [auto|discriminate]. }
    destruct (item_reduce _ _ _ _ _ _ HE HQ ltac:(lia) Hb) as [R1 R2].
    exists s2. split; auto. exists (k + 1). intros fuel. cbn [yield]. rewrite <- Nat.add_assoc, HK. cbn [plus].
    assert (NE : length gam <> 0) by (destruct gam; [congruence|cbn; lia]).
    rewrite (loop_reduce _ _ _ _ _ X (length gam) s t0 s2); auto.
    + f_equal. rewrite <- LF. rewrite firstn_app, skipn_app, Nat.sub_diag, firstn_all, skipn_all. cbn [firstn skipn app]. rewrite app_nil_r, HM, rev_involutive. reflexivity.
    + eapply item_running; eauto.
    + rewrite nth_error_app1 by lia. rewrite <- LF. exact HS.
  - intros s q d B rhs L HI HQ HS b rest stack Hb. exists s, []. cbn [length rev map flat_map app]. rewrite Nat.add_0_r. repeat split; auto. + congruence. + exists 0. auto.
  - intros X Xs t ts Hd IH Hds IHs s q d B rhs L HI HQ HS b rest stack Hb.
    assert (HX : nth_error rhs d = Some X /\ skipn (S d) rhs = Xs).
    { clear - HS. revert d HS. induction rhs as [|y rhs IH]; intros [|d] HS; cbn in *; try discriminate; [now injection HS as -> ->|]. now apply IH. }
    destruct HX as [HX HS'].
    assert (NX : exists (b' : token) rest', (flat_map yield ts ++ b :: rest)%list = b' :: rest' /\ In (fst b') (firstSeq (skipn (S d) rhs) L)).
    { rewrite HS'. destruct Xs as [|Y Ys].
      - inversion Hds; subst. cbn. eauto.
      - destruct (proj2 first_sound _ _ Hds Y Ys eq_refl) as (b' & r' & E & Hin). rewrite E. cbn. eauto. }
    destruct NX as (b' & rest' & EN & Hb').
    destruct (IH s q d B rhs L HI HQ HX b' rest' stack Hb') as (s1 & HI1 & k1 & HK1).
    destruct (IHs s1 q (S d) B rhs L HI1 HQ HS' b rest ((s, t) :: stack) Hb) as (s2 & fs & HI2 & HM & HB & k2 & HK2).
    exists s2, (fs ++ [(s, t)])%list. split; [cbn [length]; rewrite Nat.add_succ_r; exact HI2|]. split; [rewrite map_app, HM; reflexivity|].
    split. { intros _. exists t. rewrite app_length. cbn [length]. rewrite nth_error_app2 by lia. now replace (length fs + 1 - 1 - length fs) with 0 by lia. }
    exists (k1 + k2). intros fuel. cbn [flat_map]. rewrite <- !app_assoc. rewrite <- Nat.add_assoc. specialize (HK1 (k2 + fuel)). rewrite <- EN in HK1. cbn [app]. etransitivity; [exact HK1|]. apply HK2.
Qed.

Lemma parse_complete t : deriv "Formula" t ->
  exists k s, forall fuel, parseLoop (k + fuel) (yield t ++ [(EOF, "")]) [] 0 = Parsed [(s, Leaf (EOF, "")); (0, t)].
Proof.
  intros H. assert (HI : item 0 startProduction 0 [EOF]) by (apply hasItem_item; vm_compute; reflexivity).
  destruct (proj1 completeness _ _ H 0 startProduction 0 "S" ["Formula"] [EOF] HI eq_refl eq_refl (EOF, "") [] []) as (s & HI' & k & HK).
  { cbn. auto. }
  exists (k + 1), s. intros fuel. rewrite <- Nat.add_assoc, HK. cbn [plus]. pose proof (item_accept _ _ HI') as HA.
  rewrite (loop_shift _ _ _ _ _ haltingState); auto; [|eapply item_running; eauto].
  destruct fuel; reflexivity.
Qed.

(** ** Soundness and termination *)
Definition trans (s : nat) (X : string) : option nat := if isTerm X then entry shiftTable s X else entry gotoTable s X.
Definition item0 (s p d : nat) : Prop := exists l, In (p, d, l) (itemsOf s).
Definition hasItem0 (s p d : nat) : bool :=
  existsb (fun i => match i with (p', d', _) => Nat.eqb p p' && Nat.eqb d d' end) (itemsOf s).
Lemma hasItem0_item s p d : hasItem0 s p d = true -> item0 s p d.
Proof.
  unfold hasItem0. rewrite existsb_exists. intros ([[p' d'] l] & H & E). apply andb_true_iff in E. destruct E as [E0 E1].
  apply Nat.eqb_eq in E0, E1. subst. now exists l.
Qed.
(** The items of the target of a transition come from its source. *)
Definition okEdge (s : nat) (X : string) (s' : nat) : bool :=
  Nat.ltb s' haltingState && negb (Nat.eqb s' 0) &&
  forallb (fun i => match i with
                    | (p, d, _) =>
                        match d with
                        | O => true
                        | S d => match nth_error productions p with
                                 | Some (_, rhs) => match nth_error rhs d with Some Y => String.eqb X Y && hasItem0 s p d | None => false end
                                 | None => false
                                 end
                        end
                    end) (itemsOf s').
Definition okState (s : nat) : bool :=
  forallb (fun e => if String.eqb (fst e) EOF then Nat.eqb (snd e) haltingState && hasItem0 s startProduction 1
                    else isTerm (fst e) && okEdge s (fst e) (snd e)) (nth s shiftTable []) &&
  forallb (fun e => negb (isTerm (fst e)) && okEdge s (fst e) (snd e)) (nth s gotoTable []) &&
  forallb (fun e => match snd e with
                    | (A, n) => existsb (fun i => match i with
                        | (p, d, _) => match nth_error productions p with
                                       | Some (B, rhs) => String.eqb A B && Nat.eqb d n && Nat.eqb n (length rhs) && Nat.ltb p startProduction
                                       | None => false
                                       end end) (itemsOf s) end) (nth s reduceTable []) &&
  forallb (fun i => match i with
                    | (p, O, _) => if Nat.ltb p startProduction then
                        match nth_error productions p with Some (A, _) => negb (isNone (entry gotoTable s A)) | None => false end
                        else Nat.eqb s 0
                    | (_, S _, _) => negb (Nat.eqb s 0)
                    end) (itemsOf s).
Lemma states_ok : forallb okState (seq 0 haltingState) = true.
Proof. vm_compute. reflexivity. Qed.
Lemma state_ok s : s < haltingState -> okState s = true.
Proof. intros H. pose proof states_ok as O. rewrite forallb_forall in O. apply O. apply in_seq. lia. Qed.

Lemma entry_in {A} (table : list (list (string * A))) s X v : entry table s X = Some v -> In (X, v) (nth s table []).
Proof.
  unfold entry. destruct (find _ _) as [[k v']|] eqn:E; [|discriminate]. intros H. injection H as <-. apply find_some in E.
  destruct E as [E1 E2]. apply String.eqb_eq in E2. cbn in *. now subst.
Qed.

Lemma edge_items s X s' p d : okEdge s X s' = true -> item0 s' p (S d) ->
  exists A rhs, nth_error productions p = Some (A, rhs) /\ nth_error rhs d = Some X /\ item0 s p d.
Proof.
  unfold okEdge. intros H (l & Hi). apply andb_true_iff in H. destruct H as [_ H]. rewrite forallb_forall in H. specialize (H _ Hi). cbn in H.
  destruct (nth_error productions p) as [[A rhs]|]; [|discriminate]. destruct (nth_error rhs d) as [Y|] eqn:EY; [|discriminate].
  apply andb_true_iff in H. destruct H as [H1 H2]. apply String.eqb_eq in H1. subst. exists A, rhs. repeat split; auto. now apply hasItem0_item.
Qed.
Lemma trans_edge s X s' : s < haltingState -> trans s X = Some s' -> X <> EOF -> okEdge s X s' = true.
Proof.
  intros Hs HT HX. pose proof (state_ok s Hs) as O. unfold okState in O. do 2 (apply andb_true_iff in O; destruct O as [O _]).
  apply andb_true_iff in O. destruct O as [O1 O2]. unfold trans in HT. destruct (isTerm X) eqn:ET; apply entry_in in HT.
  - rewrite forallb_forall in O1. specialize (O1 _ HT). cbn in O1. apply String.eqb_neq in HX. rewrite HX in O1. now apply andb_true_iff in O1.
  - rewrite forallb_forall in O2. specialize (O2 _ HT). cbn in O2. now apply andb_true_iff in O2.
Qed.
Lemma edge_target s X s' : okEdge s X s' = true -> s' < haltingState /\ s' <> 0.
Proof.
  unfold okEdge. intros H. apply andb_true_iff in H. destruct H as [H _]. apply andb_true_iff in H. destruct H as [H1 H2].
  apply Nat.ltb_lt in H1. apply negb_true_iff in H2. apply Nat.eqb_neq in H2. auto.
Qed.

Inductive stackInv : list (nat * ptree) -> nat -> Prop :=
| si_nil : stackInv [] 0
| si_cons s t st s' X : stackInv st s -> deriv X t -> X <> EOF -> okEdge s X s' = true -> stackInv ((s, t) :: st) s'.
Lemma stackInv_lt st s : stackInv st s -> s < haltingState.
Proof. intros H. inversion H; subst; [unfold haltingState; lia|]. eapply edge_target; eauto. Qed.
Lemma stackInv_zero st : stackInv st 0 -> st = [].
Proof. intros H. inversion H; subst; auto. exfalso. apply edge_target in H3. lia. Qed.

Lemma item0_zero p d : item0 0 p d -> d = 0.
Proof.
  intros (l & H). pose proof (state_ok 0 ltac:(unfold haltingState; lia)) as O. unfold okState in O. apply andb_true_iff in O. destruct O as [_ O].
  rewrite forallb_forall in O. specialize (O _ H). cbn in O. destruct d; [auto|discriminate].
Qed.

Lemma past d : forall st s p A rhs, stackInv st s -> item0 s p d -> nth_error productions p = Some (A, rhs) -> d <= length rhs ->
  derivs (firstn d rhs) (rev (map snd (firstn d st))) /\ d <= length st /\
  exists s0, stackInv (skipn d st) s0 /\ item0 s0 p 0 /\ (d = 0 -> s0 = s) /\ (d <> 0 -> exists t, nth_error st (d - 1) = Some (s0, t)).
Proof.
  induction d as [|d IH]; intros st s p A rhs HS HI HP HL.
  - cbn. split; [constructor|]. split; [lia|]. exists s. repeat split; auto. congruence.
  - inversion HS as [|s1 t st1 s' X HS1 Hd HX HE]; subst. { apply item0_zero in HI. discriminate. }
    destruct (edge_items _ _ _ _ _ HE HI) as (A' & rhs' & HP' & HN & HI').
    assert (rhs' = rhs) as -> by congruence.
    destruct (IH st1 s1 p A rhs HS1 HI' HP ltac:(lia)) as (D1 & L1 & s0 & S0 & I0 & Z0 & N0).
    assert (FN : firstn (S d) rhs = (firstn d rhs ++ [X])%list).
    { clear - HN. revert d HN. induction rhs as [|y rhs IH]; intros [|d] HN; cbn in *; try discriminate; [now injection HN as ->|]. f_equal. now apply IH. }
    split.
    + rewrite FN. cbn [firstn map rev snd]. clear - D1 Hd. induction D1; cbn; [repeat constructor; auto|]. constructor; auto.
    + split; [cbn; lia|]. exists s0. cbn [skipn]. split; [exact S0|]. split; [exact I0|]. split; [discriminate|]. intros _. destruct d as [|d].
      * rewrite Z0 by auto. exists t. reflexivity.
      * destruct (N0 ltac:(lia)) as (t' & N1). exists t'. cbn [nth_error]. replace (S (S d) - 1) with (S d) by lia. cbn [nth_error].
        replace (S d - 1) with d in N1 by lia. exact N1.
Qed.

(** The size of derivation trees. *)
Fixpoint nodes (t : ptree) : nat :=
  match t with Leaf _ => 0 | Node _ ts => S (list_sum (map nodes ts)) end.
Lemma rank_term X : isTerm X = true -> rankOf X = 0.
Proof.
  intros H. apply existsb_str in H.
  assert (O : forallb (fun X => Nat.eqb (rankOf X) 0) terminals = true) by (vm_compute; reflexivity).
  rewrite forallb_forall in O. apply Nat.eqb_eq. auto.
Qed.
Lemma size_bound :
  (forall X t, deriv X t -> nodes t + 21 <= 22 * length (yield t) + rankOf X /\ rankOf X <= 10) /\
  (forall Xs ts, derivs Xs ts -> list_sum (map nodes ts) + 11 * length Xs <= 22 * length (flat_map yield ts) /\
     forall X, Xs = [X] -> list_sum (map nodes ts) + 21 <= 22 * length (flat_map yield ts) + rankOf X).
Proof.
  apply deriv_mut.
  - intros k x H. rewrite (rank_term _ H). cbn. lia.
  - intros p A rhs ts Hp HP Hds [IH1 IH2]. pose proof (production_ok _ _ Hp HP) as O. unfold okProduction in O. cbn [fst snd] in O.
    cbn [nodes yield]. destruct rhs as [|X [|Y rhs]].
    + rewrite andb_false_r in O; discriminate.
    + repeat (apply andb_true_iff in O; destruct O as [O ?]). apply andb_true_iff in H. destruct H as [H R].
      apply andb_true_iff in H. destruct H as [_ H]. apply Nat.leb_le in H. split; auto. specialize (IH2 X eq_refl).
      apply orb_true_iff in R. destruct R as [R|R].
      * inversion Hds as [|? ? t ts' HX HN]; subst. inversion HN; subst. inversion HX; subst.
        -- cbn. lia.
        -- rewrite (left_nonterminal _ _ _ H0 H1) in R. discriminate.
      * apply Nat.ltb_lt in R. lia.
    + repeat (apply andb_true_iff in O; destruct O as [O ?]). apply andb_true_iff in H. destruct H as [H R].
      apply andb_true_iff in H. destruct H as [_ H]. apply Nat.leb_le in H. split; auto. cbn [length] in IH1. lia.
  - cbn. split; [lia|]. intros X H. discriminate.
  - intros X Xs t ts Hd [IH R] Hds [IH1 IH2]. cbn [map list_sum fold_right flat_map length]. rewrite app_length. fold (list_sum (map nodes ts)). split.
    + change (fold_right Nat.add 0 (nodes t :: map nodes ts)) with (nodes t + list_sum (map nodes ts)). lia.
    + intros X0 E. injection E as -> ->. inversion Hds; subst. cbn [map list_sum fold_right flat_map length]. change (fold_right Nat.add 0 [nodes t]) with (nodes t + 0). lia.
Qed.

Definition stackYield (st : list (nat * ptree)) : list token := flat_map yield (rev (map snd st)).
Definition stackNodes (st : list (nat * ptree)) : nat := list_sum (map nodes (map snd st)).
Lemma stackNodes_app st st' : stackNodes (st ++ st') = stackNodes st + stackNodes st'.
Proof. unfold stackNodes. rewrite !map_app. apply list_sum_app. Qed.
Lemma stackYield_cons s t st : stackYield ((s, t) :: st) = (stackYield st ++ yield t)%list.
Proof. unfold stackYield. cbn [map rev snd]. rewrite flat_map_app. cbn. now rewrite app_nil_r. Qed.
Lemma stack_bound st s : stackInv st s -> stackNodes st <= 22 * length (stackYield st).
Proof.
  induction 1 as [|s t st s' X HS IH Hd HX HE]; [cbn; lia|]. rewrite stackYield_cons, app_length.
  destruct (proj1 size_bound _ _ Hd) as [B1 B2]. unfold stackNodes in *. cbn [map snd]. change (list_sum (nodes t :: map nodes (map snd st))) with (nodes t + list_sum (map nodes (map snd st))). lia.
Qed.
Lemma eof_not_term : isTerm EOF = false. Proof. reflexivity. Qed.

Lemma list_sum_rev l : list_sum (rev l) = list_sum l.
Proof. induction l as [|a l IH]; auto. cbn [rev]. rewrite list_sum_app, IH. change (list_sum (a :: l)) with (a + list_sum l). change (list_sum [a]) with (a + 0). lia. Qed.

Lemma deriv_kind X t : deriv X t -> X <> EOF.
Proof.
  intros H ->. inversion H; subst.
  - now rewrite eof_not_term in H0.
  - assert (O : forallb (fun P => negb (String.eqb (fst P) EOF)) productions = true) by (vm_compute; reflexivity).
    rewrite forallb_forall in O. apply nth_error_In in H1. specialize (O _ H1). discriminate.
Qed.

Lemma loop_spec fuel : forall input st s, stackInv st s ->
  match parseLoop fuel input st s with
  | Parsed st' => exists s1 tok t rest, st' = [(s1, Leaf tok); (0, t)] /\ fst tok = EOF /\ deriv "Formula" t /\
      (stackYield st ++ input = yield t ++ tok :: rest)%list
  | ParseError => True
  | Crash => False
  | Fuel => fuel + stackNodes st <= length input + 22 * length (stackYield st ++ input)
  end.
Proof.
  induction fuel as [|fuel IH]; intros input st s HS.
  - cbn [parseLoop]. pose proof (stackInv_lt _ _ HS) as HL. destruct (Nat.eqb_spec s haltingState); [lia|].
    pose proof (stack_bound _ _ HS). rewrite app_length. lia.
  - cbn [parseLoop]. pose proof (stackInv_lt _ _ HS) as HL. destruct (Nat.eqb_spec s haltingState); [lia|].
    destruct input as [|tok rest]; auto. pose proof (state_ok s HL) as O. unfold okState in O.
    do 2 (apply andb_true_iff in O; let O' := fresh "Q" in destruct O as [O O']). apply andb_true_iff in O. destruct O as [O1 O2].
    destruct (entry shiftTable s (fst tok)) as [s'|] eqn:ES.
    + pose proof (entry_in _ _ _ _ ES) as HIn. rewrite forallb_forall in O1. specialize (O1 _ HIn). cbn [fst snd] in O1.
      destruct (String.eqb_spec (fst tok) EOF) as [E|N].
      * apply andb_true_iff in O1. destruct O1 as [O1 O3]. apply Nat.eqb_eq in O1. subst s'. apply hasItem0_item in O3.
        destruct (past 1 st s startProduction "S" ["Formula"] HS O3 eq_refl ltac:(cbn; lia)) as (D1 & L1 & s0 & S0 & I0 & _ & N0).
        destruct (N0 ltac:(lia)) as (t & Nt). destruct st as [|[s2 t2] st]; [discriminate|]. cbn in Nt. injection Nt as -> ->. cbn [skipn] in S0.
        assert (s0 = 0).
        { destruct I0 as (l & I0). pose proof (stackInv_lt _ _ S0) as HL0. pose proof (state_ok s0 HL0) as O. unfold okState in O. apply andb_true_iff in O. destruct O as [_ O].
          rewrite forallb_forall in O. specialize (O _ I0). cbv beta iota in O. rewrite Nat.ltb_irrefl in O. now apply Nat.eqb_eq in O. }
        subst s0. apply stackInv_zero in S0. subst st.
        assert (PL : parseLoop fuel rest [(s, Leaf tok); (0, t)] haltingState = Parsed [(s, Leaf tok); (0, t)]) by (destruct fuel; reflexivity).
        rewrite PL. exists s, tok, t, rest. repeat split; auto.
        -- cbn [firstn map snd rev app] in D1. inversion D1; subst. auto.
        -- unfold stackYield. cbn. now rewrite app_nil_r.
      * apply andb_true_iff in O1. destruct O1 as [O1 O3].
        assert (HS' : stackInv ((s, Leaf tok) :: st) s') by (econstructor; eauto; destruct tok; now constructor).
        specialize (IH rest _ _ HS'). rewrite stackYield_cons in IH. cbn [yield] in IH. rewrite <- app_assoc in IH. cbn [app] in IH.
        destruct (parseLoop fuel rest ((s, Leaf tok) :: st) s'); auto.
        change (stackNodes ((s, Leaf tok) :: st)) with (stackNodes st) in IH. rewrite app_length in *. cbn [length] in *. lia.
    + destruct (entry reduceTable s (fst tok)) as [[X n0]|] eqn:ER; auto.
      pose proof (entry_in _ _ _ _ ER) as HIn. rewrite forallb_forall in Q0. specialize (Q0 _ HIn). cbn [fst snd] in Q0.
      apply existsb_exists in Q0. destruct Q0 as ([[p d] l] & Hi & H). destruct (nth_error productions p) as [[B rhs]|] eqn:EP; [|discriminate].
      apply andb_true_iff in H; destruct H as [H Hp]. apply andb_true_iff in H; destruct H as [H Hn]. apply andb_true_iff in H; destruct H as [HB Hd].
      apply String.eqb_eq in HB. apply Nat.eqb_eq in Hd, Hn. apply Nat.ltb_lt in Hp. subst B d n0.
      destruct (past (length rhs) st s p X rhs HS ltac:(now exists l) EP ltac:(lia)) as (D1 & L1 & s0 & S0 & I0 & _ & N0).
      assert (NE : length rhs <> 0) by (apply right_nonempty in EP; auto; destruct rhs; [congruence|cbn; lia]).
      destruct (N0 NE) as (t & Nt). rewrite Nt.
      pose proof (stackInv_lt _ _ S0) as HL0. destruct I0 as (l0 & I0). pose proof (state_ok s0 HL0) as OO. unfold okState in OO. apply andb_true_iff in OO. destruct OO as [_ OO].
      rewrite forallb_forall in OO. specialize (OO _ I0). cbv beta iota in OO. apply Nat.ltb_lt in Hp. rewrite Hp in OO. apply Nat.ltb_lt in Hp. rewrite EP in OO.
      destruct (entry gotoTable s0 X) as [s'|] eqn:EG; [|discriminate]. rewrite firstn_all in D1.
      set (tree := Node X (rev (map snd (firstn (length rhs) st)))).
      assert (DT : deriv X tree) by (econstructor; eauto).
      assert (HS' : stackInv ((s0, tree) :: skipn (length rhs) st) s').
      { econstructor; eauto. - eapply deriv_kind; eauto. - apply trans_edge; auto; [|eapply deriv_kind; eauto]. unfold trans. now rewrite (left_nonterminal _ _ _ Hp EP). }
      assert (YE : stackYield ((s0, tree) :: skipn (length rhs) st) = stackYield st).
      { rewrite stackYield_cons. unfold tree. cbn [yield]. rewrite <- (firstn_skipn (length rhs) st) at 3. unfold stackYield.
        rewrite map_app, rev_app_distr, flat_map_app. reflexivity. }
      assert (ND : stackNodes ((s0, tree) :: skipn (length rhs) st) = S (stackNodes st)).
      { rewrite <- (firstn_skipn (length rhs) st) at 2. rewrite stackNodes_app. unfold stackNodes, tree. cbn [map snd nodes].
        rewrite map_rev. match goal with |- list_sum (?a :: ?b) = _ => change (list_sum (a :: b)) with (a + list_sum b) end. rewrite list_sum_rev. lia. }
      pose proof (stack_bound _ _ HS') as SB. rewrite YE, ND in SB.
      specialize (IH (tok :: rest) _ _ HS'). rewrite YE, ND in IH.
      destruct (parseLoop fuel (tok :: rest) ((s0, tree) :: skipn (length rhs) st) s'); auto.
      lia.
Qed.

(** Every kind of token but EOF is possible in the input. *)
Definition noEOF (ts : list token) : Prop := forall t, In t ts -> fst t <> EOF.
Lemma yield_noEOF : (forall X t, deriv X t -> noEOF (yield t)) /\ (forall Xs ts, derivs Xs ts -> noEOF (flat_map yield ts)).
Proof.
  apply deriv_mut.
  - intros k x H t [<-|[]]. cbn. intros ->. now rewrite eof_not_term in H.
  - auto.
  - intros t [].
  - intros X Xs t ts _ IH _ IHs u Hu. cbn in Hu. apply in_app_iff in Hu. destruct Hu; auto.
Qed.
Lemma split_EOF (a b : list token) x y c d : noEOF a -> noEOF b -> fst x = EOF -> fst y = EOF ->
  (a ++ x :: c = b ++ y :: d)%list -> a = b.
Proof.
  revert b. induction a as [|u a IH]; intros [|v b] Ha Hb Hx Hy E; cbn in E; auto.
  - injection E as -> _. exfalso. apply (Hb v); [now left|auto].
  - injection E as -> _. exfalso. apply (Ha y); [now left|auto].
  - injection E as -> E. f_equal. apply (IH b); auto; intros t Ht; [apply Ha|apply Hb]; now right.
Qed.

Theorem parse_total ts : parse ts <> Fuel /\ parse ts <> Crash.
Proof.
  unfold parse. pose proof (loop_spec (24 * S (length ts)) (ts ++ [(EOF, "")]) [] 0 si_nil) as H.
  destruct (parseLoop (24 * S (length ts)) (ts ++ [(EOF, "")]) [] 0); split; try discriminate; auto.
  intros _. cbn [stackYield stackNodes map list_sum fold_right flat_map rev app] in H. change (stackNodes []) with 0 in H. rewrite app_length in H. cbn [length] in H. lia.
Qed.
Lemma loop_mono fuel : forall input st s k, parseLoop fuel input st s <> Fuel -> parseLoop (fuel + k) input st s = parseLoop fuel input st s.
Proof.
  induction fuel as [|fuel IH]; intros input st s k H.
  - cbn [parseLoop plus] in *. destruct (Nat.eqb s haltingState) eqn:E; [|congruence]. destruct k; cbn [parseLoop]; now rewrite E.
  - cbn [parseLoop plus] in *. destruct (Nat.eqb s haltingState); auto. destruct input as [|b rest]; auto.
    destruct (entry shiftTable s (fst b)); [now apply IH|]. destruct (entry reduceTable s (fst b)) as [[X n]|]; auto.
    destruct (nth_error st (n - 1)) as [[s0 t]|]; auto. destruct (entry gotoTable s0 X); auto.
Qed.

Theorem parse_spec ts t : noEOF ts -> (parseTree ts = Some t <-> deriv "Formula" t /\ yield t = ts).
Proof.
  intros HN. unfold parseTree. split.
  - intros H. destruct (parse ts) as [st| | |] eqn:E; try discriminate. unfold parse in E.
    pose proof (loop_spec (24 * S (length ts)) (ts ++ [(EOF, "")]) [] 0 si_nil) as L. rewrite E in L.
    destruct L as (s1 & tok & t' & rest & -> & HE & Hd & HY). cbn in H. injection H as ->. split; auto.
    apply (split_EOF (yield t) ts tok (EOF, "") rest []); auto. now apply (proj1 yield_noEOF _ _ Hd).
  - intros [Hd <-]. destruct (parse_complete t Hd) as (k & s & HK).
    assert (P : parse (yield t) = Parsed [(s, Leaf (EOF, "")); (0, t)]).
    { unfold parse. set (F := 24 * S (length (yield t))). rewrite <- (loop_mono F _ [] 0 k); [|apply (parse_total (yield t))].
      rewrite Nat.add_comm. apply HK. }
    rewrite P. reflexivity.
Qed.
