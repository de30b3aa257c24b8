(** * Boolean functions

    Model of the Boolean-function layer: class BFBdd ("BF"),
    /repo/src/BFAbstractionLibrary/BFCudd.h (lines 20-215) and
    /repo/src/BFAbstractionLibrary/BFCuddInlines.h.

    The C++ class is a thin wrapper around nodes of the CUDD library.  CUDD
    keeps reduced ordered binary decision diagrams in a unique table, so that
    node pointers are equal iff the diagrams are equal.  The model uses reduced
    ordered decision *trees* (the unfolding of the shared DAG) together with the
    proof that they are reduced and ordered.  Node pointer comparison is modelled
    as syntactic equality of the trees.

    Simplifications: CUDD's computed tables, complement edges, reference counts,
    garbage collection and dynamic variable reordering are not modelled; the
    variable order is the order of allocation.  None of them is visible in the
    results of the operations used by slugs. *)

From Coq Require Import Bool Arith List Lia Eqdep_dec.
Import ListNotations.

(** ** Decision trees *)

Inductive tree : Type :=
| Leaf (b : bool)
| Node (v : nat) (lo hi : tree).

(** Pointer equality of CUDD nodes (BFCudd.h:96-98). *)
Fixpoint tree_eqb (t u : tree) : bool :=
  match t, u with
  | Leaf a, Leaf b => Bool.eqb a b
  | Node v l h, Node v' l' h' => Nat.eqb v v' && tree_eqb l l' && tree_eqb h h'
  | _, _ => false
  end.

(** The value of a diagram under a valuation of the variables. *)
Fixpoint teval (t : tree) (e : nat -> bool) : bool :=
  match t with
  | Leaf b => b
  | Node v l h => if e v then teval h e else teval l e
  end.

(** Reduced and ordered, all variables at least [n]. *)
Fixpoint robdd (n : nat) (t : tree) : bool :=
  match t with
  | Leaf _ => true
  | Node v l h =>
      Nat.leb n v && robdd (S v) l && robdd (S v) h && negb (tree_eqb l h)
  end.

(** Node creation with the reduction rule (CUDD's cuddUniqueInter). *)
Definition mk (v : nat) (l h : tree) : tree :=
  if tree_eqb l h then l else Node v l h.

Fixpoint tnot (t : tree) : tree :=
  match t with
  | Leaf b => Leaf (negb b)
  | Node v l h => Node v (tnot l) (tnot h)
  end.

(** Binary apply. *)
Fixpoint tapply (op : bool -> bool -> bool) (t : tree) : tree -> tree :=
  fix inner (u : tree) : tree :=
    match t, u with
    | Leaf a, Leaf b => Leaf (op a b)
    | Leaf _, Node v l h => mk v (inner l) (inner h)
    | Node v l h, Leaf _ => mk v (tapply op l u) (tapply op h u)
    | Node v l h, Node v' l' h' =>
        if Nat.eqb v v' then mk v (tapply op l l') (tapply op h h')
        else if Nat.ltb v v' then mk v (tapply op l u) (tapply op h u)
        else mk v' (inner l') (inner h')
    end.

(** Cofactor. *)
Fixpoint trestrict (x : nat) (b : bool) (t : tree) : tree :=
  match t with
  | Leaf c => Leaf c
  | Node v l h =>
      if Nat.eqb v x then (if b then h else l)
      else if Nat.ltb x v then t
      else mk v (trestrict x b l) (trestrict x b h)
  end.

Definition tvar (x : nat) : tree := Node x (Leaf false) (Leaf true).

(** Substitution of variables by variables. *)
Fixpoint tsubst (sg : nat -> nat) (t : tree) : tree :=
  match t with
  | Leaf b => Leaf b
  | Node v l h =>
      let x := tvar (sg v) in
      tapply orb (tapply andb x (tsubst sg h))
                 (tapply andb (tnot x) (tsubst sg l))
  end.

(** *** Facts about trees *)

Lemma tree_eqb_eq t : forall u, tree_eqb t u = true <-> t = u.
Proof.
  induction t as [a|v l IHl h IHh]; intros [b|v' l' h']; cbn [tree_eqb];
    try (split; intros; discriminate).
  - rewrite Bool.eqb_true_iff. split; intros H; [now subst | now inversion H].
  - rewrite !andb_true_iff, Nat.eqb_eq, IHl, IHh.
    split; [intros [[-> ->] ->]; reflexivity | intros H; inversion H; auto].
Qed.

Lemma tree_eqb_refl t : tree_eqb t t = true.
Proof. now apply tree_eqb_eq. Qed.

Lemma tree_eqb_neq t u : tree_eqb t u = false <-> t <> u.
Proof.
  destruct (tree_eqb t u) eqn:E.
  - apply tree_eqb_eq in E. split; [discriminate | intros H; now elim H].
  - split; [intros _ H | reflexivity]. apply tree_eqb_eq in H. congruence.
Qed.

Lemma robdd_weaken t : forall n m, m <= n -> robdd n t = true -> robdd m t = true.
Proof.
  destruct t as [b|v l h]; cbn [robdd]; auto.
  intros n m Hm. rewrite !andb_true_iff, !Nat.leb_le.
  intros [[[H1 H2] H3] H4]. repeat split; auto; lia.
Qed.

Lemma mk_eval v l h e : teval (mk v l h) e = if e v then teval h e else teval l e.
Proof.
  unfold mk. destruct (tree_eqb l h) eqn:E; cbn [teval]; auto.
  apply tree_eqb_eq in E; subst. now destruct (e v).
Qed.

Lemma mk_robdd n v l h :
  n <= v -> robdd (S v) l = true -> robdd (S v) h = true -> robdd n (mk v l h) = true.
Proof.
  intros Hn Hl Hh. unfold mk. destruct (tree_eqb l h) eqn:E.
  - eapply robdd_weaken; [|exact Hl]. lia.
  - cbn [robdd]. rewrite Hl, Hh, E. cbn. rewrite !andb_true_r. now apply Nat.leb_le.
Qed.

Lemma teval_ext_ge t : forall n e e', robdd n t = true ->
  (forall v, n <= v -> e v = e' v) -> teval t e = teval t e'.
Proof.
  induction t as [b|v l IHl h IHh]; intros n e e' Hr He; cbn [teval]; auto.
  cbn [robdd] in Hr. rewrite !andb_true_iff, Nat.leb_le in Hr.
  destruct Hr as [[[H1 H2] H3] _].
  rewrite (He v H1). destruct (e' v).
  - apply (IHh (S v)); auto. intros; apply He; lia.
  - apply (IHl (S v)); auto. intros; apply He; lia.
Qed.

Definition upd (e : nat -> bool) (x : nat) (b : bool) : nat -> bool :=
  fun v => if Nat.eqb v x then b else e v.

Lemma upd_same e x b : upd e x b x = b.
Proof. unfold upd. now rewrite Nat.eqb_refl. Qed.

Lemma upd_other e x b v : v <> x -> upd e x b v = e v.
Proof. intros H. unfold upd. apply Nat.eqb_neq in H. now rewrite H. Qed.

Lemma teval_upd_lt t n x b e : robdd n t = true -> x < n -> teval t (upd e x b) = teval t e.
Proof.
  intros Hr Hx. eapply teval_ext_ge; [exact Hr|].
  intros v Hv. apply upd_other. lia.
Qed.

(** Canonicity of reduced ordered diagrams. *)
Lemma robdd_canon t : forall u n, robdd n t = true -> robdd n u = true ->
  (forall e, teval t e = teval u e) -> t = u.
Proof.
  assert (Aux : forall v l h n u, robdd n (Node v l h) = true ->
            robdd (S v) u = true ->
            (forall u', robdd (S v) u' = true -> (forall e, teval l e = teval u' e) -> l = u') ->
            (forall u', robdd (S v) u' = true -> (forall e, teval h e = teval u' e) -> h = u') ->
            (forall e, teval (Node v l h) e = teval u e) -> False).
  { intros v l h n u Ht Hu IHl IHh E.
    cbn [robdd] in Ht. rewrite !andb_true_iff, Nat.leb_le, negb_true_iff in Ht.
    destruct Ht as [[[H1 H2] H3] H4].
    apply tree_eqb_neq in H4. apply H4.
    transitivity u.
    - apply IHl; auto. intros e.
      specialize (E (upd e v false)). cbn [teval] in E. rewrite upd_same in E.
      rewrite !(teval_upd_lt _ (S v)) in E by (auto; lia). exact E.
    - symmetry. apply IHh; auto. intros e.
      specialize (E (upd e v true)). cbn [teval] in E. rewrite upd_same in E.
      rewrite !(teval_upd_lt _ (S v)) in E by (auto; lia). exact E. }
  induction t as [a|v l IHl h IHh].
  - induction u as [b|v' l' IHl' h' IHh']; intros n Ht Hu E.
    + f_equal. exact (E (fun _ => false)).
    + exfalso.
      cbn [robdd] in Hu. rewrite !andb_true_iff in Hu. destruct Hu as [[[? ?] ?] ?].
      assert (Leaf a = l').
      { apply (IHl' (S v')); auto. intros e. specialize (E (upd e v' false)).
        cbn [teval] in E |- *. rewrite upd_same in E.
        rewrite (teval_upd_lt _ (S v')) in E by (auto; lia). exact E. }
      assert (Leaf a = h').
      { apply (IHh' (S v')); auto. intros e. specialize (E (upd e v' true)).
        cbn [teval] in E |- *. rewrite upd_same in E.
        rewrite (teval_upd_lt _ (S v')) in E by (auto; lia). exact E. }
      subst l' h'. rewrite tree_eqb_refl in *. discriminate.
  - induction u as [b|v' l' IHl' h' IHh']; intros n Ht Hu E.
    + exfalso. pose proof Ht as Ht'.
      cbn [robdd] in Ht'. rewrite !andb_true_iff in Ht'. destruct Ht' as [[[T1 T2] T3] T4].
      apply (Aux v l h n (Leaf b)); auto; intros u' Hu' E'; [apply (IHl u' (S v))|apply (IHh u' (S v))]; auto.
    + pose proof Ht as Ht'. pose proof Hu as Hu'.
      cbn [robdd] in Ht', Hu'. rewrite !andb_true_iff, Nat.leb_le in Ht', Hu'.
      destruct Ht' as [[[T1 T2] T3] T4]. destruct Hu' as [[[U1 U2] U3] U4].
      destruct (lt_eq_lt_dec v v') as [[L| ->]|L].
      * exfalso. apply (Aux v l h n (Node v' l' h')); auto.
        -- cbn [robdd]. rewrite U2, U3, U4, !andb_true_r. apply Nat.leb_le. lia.
        -- intros u' Hu' E'. apply (IHl u' (S v)); auto.
        -- intros u' Hu' E'. apply (IHh u' (S v)); auto.
      * assert (l = l').
        { apply (IHl l' (S v')); auto. intros e.
          specialize (E (upd e v' false)). cbn [teval] in E. rewrite upd_same in E.
          rewrite !(teval_upd_lt _ (S v')) in E by (auto; lia). exact E. }
        assert (h = h').
        { apply (IHh h' (S v')); auto. intros e.
          specialize (E (upd e v' true)). cbn [teval] in E. rewrite upd_same in E.
          rewrite !(teval_upd_lt _ (S v')) in E by (auto; lia). exact E. }
        congruence.
      * exfalso.
        assert (Node v l h = l') as E1.
        { apply (IHl' (S v')); auto.
          - cbn [robdd]. rewrite T2, T3, T4, !andb_true_r. apply Nat.leb_le. lia.
          - intros e. specialize (E (upd e v' false)). cbn [teval] in E.
            rewrite upd_same, upd_other in E by lia.
            rewrite !(teval_upd_lt _ (S v')) in E.
            + exact E.
            + auto. + lia.
            + eapply robdd_weaken; [|exact T2]; lia. + lia.
            + eapply robdd_weaken; [|exact T3]; lia. + lia. }
        assert (Node v l h = h') as E2.
        { apply (IHh' (S v')); auto.
          - cbn [robdd]. rewrite T2, T3, T4, !andb_true_r. apply Nat.leb_le. lia.
          - intros e. specialize (E (upd e v' true)). cbn [teval] in E.
            rewrite upd_same, upd_other in E by lia.
            rewrite !(teval_upd_lt _ (S v')) in E.
            + exact E.
            + auto. + lia.
            + eapply robdd_weaken; [|exact T2]; lia. + lia.
            + eapply robdd_weaken; [|exact T3]; lia. + lia. }
        subst l' h'. rewrite tree_eqb_refl in U4. discriminate.
Qed.

Lemma tnot_inj t : forall u, tnot t = tnot u -> t = u.
Proof.
  induction t as [a|v l IHl h IHh]; intros [b|v' l' h'] H; cbn [tnot] in H; inversion H.
  - destruct a, b; try reflexivity; discriminate.
  - f_equal; auto.
Qed.

Lemma tnot_robdd t : forall n, robdd n t = true -> robdd n (tnot t) = true.
Proof.
  induction t as [a|v l IHl h IHh]; intros n H; cbn [tnot robdd] in *; auto.
  rewrite !andb_true_iff, negb_true_iff in *. destruct H as [[[H1 H2] H3] H4].
  repeat split; auto. apply tree_eqb_neq. apply tree_eqb_neq in H4.
  intros E. apply H4. now apply tnot_inj.
Qed.

Lemma tnot_eval t e : teval (tnot t) e = negb (teval t e).
Proof. induction t as [a|v l IHl h IHh]; cbn [tnot teval]; auto. now destruct (e v). Qed.

Lemma tapply_robdd op t : forall u n, robdd n t = true -> robdd n u = true ->
  robdd n (tapply op t u) = true.
Proof.
  induction t as [a|v l IHl h IHh].
  - induction u as [b|v' l' IHl' h' IHh']; intros n Ht Hu; auto.
    cbn [robdd] in Hu. rewrite !andb_true_iff, Nat.leb_le in Hu.
    destruct Hu as [[[U1 U2] U3] U4].
    change (tapply op (Leaf a) (Node v' l' h'))
      with (mk v' (tapply op (Leaf a) l') (tapply op (Leaf a) h')).
    apply mk_robdd; auto.
  - induction u as [b|v' l' IHl' h' IHh']; intros n Ht Hu; pose proof Ht as Ht';
      cbn [robdd] in Ht; rewrite !andb_true_iff, Nat.leb_le in Ht; destruct Ht as [[[T1 T2] T3] T4].
    + cbn [tapply]. apply mk_robdd; auto.
    + pose proof Hu as Hu'. cbn [robdd] in Hu. rewrite !andb_true_iff, Nat.leb_le in Hu.
      destruct Hu as [[[U1 U2] U3] U4].
      assert (G : forall m w a b c d, robdd n (Node m a b) = true -> w < m ->
                    c = Node m a b -> d = c -> robdd (S w) d = true).
      { intros m w a b c d H Hlt -> ->. cbn [robdd] in *.
        rewrite !andb_true_iff in *. destruct H as [[[? ?] ?] ?].
        repeat split; auto. apply Nat.leb_le. lia. }
      change (tapply op (Node v l h) (Node v' l' h')) with
        (if Nat.eqb v v' then mk v (tapply op l l') (tapply op h h')
         else if Nat.ltb v v' then mk v (tapply op l (Node v' l' h')) (tapply op h (Node v' l' h'))
         else mk v' (tapply op (Node v l h) l') (tapply op (Node v l h) h')).
      destruct (Nat.eqb_spec v v') as [->|Hne].
      * apply mk_robdd; auto.
      * destruct (Nat.ltb_spec v v') as [L|L].
        -- apply mk_robdd; auto; [apply IHl | apply IHh]; eauto.
        -- assert (v' < v) by lia.
           apply mk_robdd; auto; [apply IHl' | apply IHh']; eauto.
Qed.

Lemma tapply_eval op t : forall u e, teval (tapply op t u) e = op (teval t e) (teval u e).
Proof.
  induction t as [a|v l IHl h IHh].
  - induction u as [b|v' l' IHl' h' IHh']; intros e; auto.
    change (tapply op (Leaf a) (Node v' l' h'))
      with (mk v' (tapply op (Leaf a) l') (tapply op (Leaf a) h')).
    rewrite mk_eval, IHl', IHh'. cbn [teval]. now destruct (e v').
  - induction u as [b|v' l' IHl' h' IHh']; intros e.
    + cbn [tapply]. rewrite mk_eval, IHl, IHh. cbn [teval]. now destruct (e v).
    + change (tapply op (Node v l h) (Node v' l' h')) with
        (if Nat.eqb v v' then mk v (tapply op l l') (tapply op h h')
         else if Nat.ltb v v' then mk v (tapply op l (Node v' l' h')) (tapply op h (Node v' l' h'))
         else mk v' (tapply op (Node v l h) l') (tapply op (Node v l h) h')).
      destruct (Nat.eqb_spec v v') as [->|Hne].
      * rewrite mk_eval, IHl, IHh. cbn [teval]. now destruct (e v').
      * destruct (Nat.ltb_spec v v') as [L|L].
        -- rewrite mk_eval, IHl, IHh. cbn [teval]. now destruct (e v).
        -- rewrite mk_eval, IHl', IHh'. cbn [teval]. now destruct (e v').
Qed.

Lemma trestrict_robdd x b t : forall n, robdd n t = true -> robdd n (trestrict x b t) = true.
Proof.
  induction t as [a|v l IHl h IHh]; intros n H; auto.
  pose proof H as H'. cbn [robdd] in H'. rewrite !andb_true_iff, Nat.leb_le in H'.
  destruct H' as [[[T1 T2] T3] T4].
  cbn [trestrict]. destruct (Nat.eqb v x).
  - destruct b; (eapply robdd_weaken; [|eassumption]; lia).
  - destruct (Nat.ltb x v); auto. apply mk_robdd; auto.
Qed.

Lemma trestrict_eval x b t : forall n e, robdd n t = true ->
  teval (trestrict x b t) e = teval t (upd e x b).
Proof.
  induction t as [a|v l IHl h IHh]; intros n e H; auto.
  pose proof H as H'. cbn [robdd] in H'. rewrite !andb_true_iff, Nat.leb_le in H'.
  destruct H' as [[[T1 T2] T3] T4].
  cbn [trestrict]. destruct (Nat.eqb_spec v x) as [->|Hne].
  - cbn [teval]. rewrite upd_same. destruct b; rewrite (teval_upd_lt _ (S x)); auto.
  - destruct (Nat.ltb_spec x v) as [L|L].
    + symmetry. cbn [teval]. rewrite upd_other by auto.
      rewrite !(teval_upd_lt _ (S v)); auto.
    + rewrite mk_eval. cbn [teval]. rewrite upd_other by auto.
      rewrite (IHl (S v)), (IHh (S v)) by auto. reflexivity.
Qed.

Lemma tvar_robdd x : robdd 0 (tvar x) = true.
Proof. reflexivity. Qed.

Lemma tsubst_robdd sg t : robdd 0 (tsubst sg t) = true.
Proof.
  induction t as [a|v l IHl h IHh]; auto. cbn [tsubst].
  apply tapply_robdd; apply tapply_robdd; auto.
Qed.

Lemma tsubst_eval sg t e : teval (tsubst sg t) e = teval t (fun v => e (sg v)).
Proof.
  induction t as [a|v l IHl h IHh]; auto. cbn [tsubst].
  rewrite !tapply_eval, tnot_eval, IHl, IHh. cbn [tvar teval].
  destruct (e (sg v)); cbn; now rewrite ?orb_false_r.
Qed.

(** ** The type of Boolean functions *)

(** class BFBdd.  Values of this type are valid (non-null) functions; the null
    function produced by the default constructor (BFCudd.h:30) is modelled
    separately wherever it can occur. *)
Record BF : Type := mkBF { bft : tree; bft_ok : robdd 0 bft = true }.

(** Truth value under a valuation. *)
Definition eval (f : BF) (e : nat -> bool) : bool := teval (bft f) e.

(** operator== / operator!= (BFCudd.h:96-98, 160-162). *)
Definition bf_eqb (f g : BF) : bool := tree_eqb (bft f) (bft g).

Lemma const_ok b : robdd 0 (Leaf b) = true.
Proof. reflexivity. Qed.
(** BFManager::constantTrue / constantFalse. *)
Definition btrue : BF := mkBF (Leaf true) (const_ok true).
Definition bfalse : BF := mkBF (Leaf false) (const_ok false).

(** The variable number [x]; BFManager::newVariable (CUDD's bddNewVar) returns
    them in increasing order. *)
Definition bvar (x : nat) : BF := mkBF (tvar x) (tvar_robdd x).

Definition bnot (f : BF) : BF := mkBF (tnot (bft f)) (tnot_robdd _ _ (bft_ok f)).
Definition bapply (op : bool -> bool -> bool) (f g : BF) : BF :=
  mkBF (tapply op (bft f) (bft g)) (tapply_robdd op _ _ _ (bft_ok f) (bft_ok g)).
(** operator&, operator|, operator^, Implies (BFCudd.h:139-153, 199-201). *)
Definition band := bapply andb.
Definition bor := bapply orb.
Definition bxor := bapply xorb.
Definition bimp (f g : BF) : BF := bor (bnot f) g.

Definition brestrict (x : nat) (b : bool) (f : BF) : BF :=
  mkBF (trestrict x b (bft f)) (trestrict_robdd x b _ _ (bft_ok f)).

(** ExistAbstract / UnivAbstract over a variable cube
    (BFCuddInlines.h; CUDD's Cudd_bddExistAbstract / Cudd_bddUnivAbstract).
    A BFVarCube is modelled as the list of its variables. *)
Fixpoint bexists (vs : list nat) (f : BF) : BF :=
  match vs with
  | [] => f
  | x :: vs => let g := bexists vs f in bor (brestrict x false g) (brestrict x true g)
  end.
Fixpoint bforall (vs : list nat) (f : BF) : BF :=
  match vs with
  | [] => f
  | x :: vs => let g := bforall vs f in band (brestrict x false g) (brestrict x true g)
  end.

(** SwapVariables (BFCuddInlines.h; CUDD's Cudd_bddSwapVariables): simultaneous
    exchange of the i-th variables of the two vectors. *)
Fixpoint swapf (xs ys : list nat) (v : nat) : nat :=
  match xs, ys with
  | x :: xs, y :: ys =>
      if Nat.eqb v x then y else if Nat.eqb v y then x else swapf xs ys v
  | _, _ => v
  end.
Definition bsubst (sg : nat -> nat) (f : BF) : BF :=
  mkBF (tsubst sg (bft f)) (tsubst_robdd sg (bft f)).
Definition bswap (xs ys : list nat) (f : BF) : BF := bsubst (swapf xs ys) f.

(** isFalse, isTrue, isConstant (BFCudd.h:64-70, 181-183). *)
Definition isFalse (f : BF) : bool := match bft f with Leaf false => true | _ => false end.
Definition isTrue (f : BF) : bool := match bft f with Leaf true => true | _ => false end.
Definition isConstant (f : BF) : bool := match bft f with Leaf _ => true | _ => false end.

(** operator<= (BFCudd.h:117-119, Cudd_bddLeq) and operator< (BFCudd.h:125-128). *)
Definition bleq (f g : BF) : bool := isFalse (band f (bnot g)).
Definition blt (f g : BF) : bool := bleq f g && negb (bf_eqb f g).

(** ** Interface lemmas *)

Lemma bf_ext (f g : BF) : (forall e, eval f e = eval g e) -> f = g.
Proof.
  destruct f as [t Ht], g as [u Hu]; unfold eval; cbn [bft]. intros E.
  assert (t = u) by (eapply robdd_canon; eauto). subst u. f_equal.
  apply UIP_dec. apply bool_dec.
Qed.

Lemma bf_eqb_eq f g : bf_eqb f g = true <-> f = g.
Proof.
  unfold bf_eqb. rewrite tree_eqb_eq. split; [|now intros ->].
  intros E. apply bf_ext. intros e. unfold eval. now rewrite E.
Qed.

Lemma bf_eqb_spec f g : reflect (f = g) (bf_eqb f g).
Proof. apply iff_reflect. symmetry. apply bf_eqb_eq. Qed.

Lemma bf_eqb_refl f : bf_eqb f f = true.
Proof. now apply bf_eqb_eq. Qed.

Lemma bf_eqb_neq f g : bf_eqb f g = false <-> f <> g.
Proof. destruct (bf_eqb_spec f g); split; congruence. Qed.

Lemma bf_eq_dec (f g : BF) : {f = g} + {f <> g}.
Proof. destruct (bf_eqb_spec f g); auto. Qed.

Lemma eval_true e : eval btrue e = true. Proof. reflexivity. Qed.
Lemma eval_false e : eval bfalse e = false. Proof. reflexivity. Qed.
Lemma eval_var x e : eval (bvar x) e = e x.
Proof. unfold eval; cbn. now destruct (e x). Qed.
Lemma eval_not f e : eval (bnot f) e = negb (eval f e).
Proof. apply tnot_eval. Qed.
Lemma eval_and f g e : eval (band f g) e = eval f e && eval g e.
Proof. apply (tapply_eval andb). Qed.
Lemma eval_or f g e : eval (bor f g) e = eval f e || eval g e.
Proof. apply (tapply_eval orb). Qed.
Lemma eval_xor f g e : eval (bxor f g) e = xorb (eval f e) (eval g e).
Proof. apply (tapply_eval xorb). Qed.
Lemma eval_imp f g e : eval (bimp f g) e = implb (eval f e) (eval g e).
Proof. unfold bimp. rewrite eval_or, eval_not. now destruct (eval f e), (eval g e). Qed.
Lemma eval_restrict x b f e : eval (brestrict x b f) e = eval f (upd e x b).
Proof. eapply trestrict_eval. apply bft_ok. Qed.
Lemma eval_subst sg f e : eval (bsubst sg f) e = eval f (fun v => e (sg v)).
Proof. apply tsubst_eval. Qed.
Lemma eval_swap xs ys f e : eval (bswap xs ys f) e = eval f (fun v => e (swapf xs ys v)).
Proof. apply tsubst_eval. Qed.

Lemma eval_ext f e e' : (forall v, e v = e' v) -> eval f e = eval f e'.
Proof. intros H. eapply teval_ext_ge; [apply bft_ok|]. auto. Qed.

(** Valuations that agree outside a list of variables. *)
Definition agree_off (vs : list nat) (e e' : nat -> bool) : Prop :=
  forall v, ~ In v vs -> e v = e' v.

Lemma eval_exists vs : forall f e, eval (bexists vs f) e = true <->
  exists e', agree_off vs e e' /\ eval f e' = true.
Proof.
  induction vs as [|x vs IH]; intros f e; cbn [bexists].
  - split; [exists e; split; auto; now intros v _|].
    intros (e' & Ha & He). rewrite <- He. apply eval_ext. intros v. apply Ha. easy.
  - rewrite eval_or, !eval_restrict, orb_true_iff, !IH. split.
    + intros [(e' & Ha & He)|(e' & Ha & He)]; exists e'; split; auto; intros v Hv;
        cbn [In] in Hv; rewrite <- (Ha v) by tauto; symmetry; apply upd_other; intros ->; tauto.
    + intros (e' & Ha & He).
      assert (H : agree_off vs (upd e x (e' x)) e').
      { intros v Hv. destruct (Nat.eq_dec v x) as [->|Hne]; [apply upd_same|].
        rewrite upd_other by auto. apply Ha. cbn. intros [->|]; tauto. }
      destruct (e' x); [right|left]; exists e'; auto.
Qed.

Lemma eval_forall vs : forall f e, eval (bforall vs f) e = true <->
  forall e', agree_off vs e e' -> eval f e' = true.
Proof.
  induction vs as [|x vs IH]; intros f e; cbn [bforall].
  - split; [|intros H; apply H; now intros v _].
    intros H e' Ha. rewrite <- H. apply eval_ext. intros v. symmetry. apply Ha. easy.
  - rewrite eval_and, !eval_restrict, andb_true_iff, !IH. split.
    + intros [H0 H1] e' Ha.
      assert (H : agree_off vs (upd e x (e' x)) e').
      { intros v Hv. destruct (Nat.eq_dec v x) as [->|Hne]; [apply upd_same|].
        rewrite upd_other by auto. apply Ha. cbn. intros [->|]; tauto. }
      destruct (e' x); [apply H1|apply H0]; auto.
    + intros H. split; intros e' Ha; apply H; intros v Hv;
        cbn [In] in Hv; rewrite <- (Ha v) by tauto; symmetry; apply upd_other; intros ->; tauto.
Qed.

Lemma isFalse_iff f : isFalse f = true <-> f = bfalse.
Proof.
  split; [|intros ->; reflexivity]. intros H. apply bf_ext. intros e.
  destruct f as [[[|]|] ?]; try discriminate. reflexivity.
Qed.
Lemma isTrue_iff f : isTrue f = true <-> f = btrue.
Proof.
  split; [|intros ->; reflexivity]. intros H. apply bf_ext. intros e.
  destruct f as [[[|]|] ?]; try discriminate. reflexivity.
Qed.
Lemma isFalse_spec f : isFalse f = true <-> forall e, eval f e = false.
Proof.
  rewrite isFalse_iff. split; [intros -> e; reflexivity|].
  intros H. apply bf_ext. intros e. now rewrite H.
Qed.
Lemma isTrue_spec f : isTrue f = true <-> forall e, eval f e = true.
Proof.
  rewrite isTrue_iff. split; [intros -> e; reflexivity|].
  intros H. apply bf_ext. intros e. now rewrite H.
Qed.

(** A satisfying valuation of a non-false function. *)
Fixpoint tsat (t : tree) : nat -> bool :=
  match t with
  | Leaf _ => fun _ => false
  | Node v l h =>
      if tree_eqb l (Leaf false) then upd (tsat h) v true else upd (tsat l) v false
  end.

Lemma tsat_ok t : forall n, robdd n t = true -> t <> Leaf false -> teval t (tsat t) = true.
Proof.
  induction t as [[|]|v l IHl h IHh]; intros n Hr Hne; [reflexivity| |].
  - exfalso. now apply Hne.
  - cbn [robdd] in Hr. rewrite !andb_true_iff, negb_true_iff in Hr. destruct Hr as [[[H1 H2] H3] H4].
    cbn [tsat]. destruct (tree_eqb l (Leaf false)) eqn:E; cbn [teval]; rewrite upd_same.
    + rewrite (teval_upd_lt _ (S v)) by (auto; lia). apply (IHh (S v)); auto.
      intros ->. apply tree_eqb_eq in E. subst l. discriminate.
    + rewrite (teval_upd_lt _ (S v)) by (auto; lia). apply (IHl (S v)); auto.
      now apply tree_eqb_neq.
Qed.

Lemma isFalse_false f : isFalse f = false <-> exists e, eval f e = true.
Proof.
  split.
  - intros H. exists (tsat (bft f)). eapply tsat_ok; [apply bft_ok|].
    unfold isFalse in H. intros E. rewrite E in H. discriminate.
  - intros (e & He). destruct (isFalse f) eqn:E; auto.
    rewrite isFalse_spec in E. rewrite E in He. discriminate.
Qed.

Lemma isTrue_false f : isTrue f = false <-> exists e, eval f e = false.
Proof.
  split.
  - intros H. exists (tsat (bft (bnot f))).
    assert (E : eval (bnot f) (tsat (bft (bnot f))) = true).
    { eapply tsat_ok; [apply bft_ok|]. intros E.
      assert (isFalse (bnot f) = true) as F by (unfold isFalse; now rewrite E).
      rewrite isFalse_spec in F.
      assert (isTrue f = true); [|congruence].
      apply isTrue_spec. intros e. specialize (F e). rewrite eval_not in F.
      now destruct (eval f e). }
    rewrite eval_not in E. now destruct (eval f _).
  - intros (e & He). destruct (isTrue f) eqn:E; auto.
    rewrite isTrue_spec in E. rewrite E in He. discriminate.
Qed.

Lemma isConstant_spec f : isConstant f = true <-> f = btrue \/ f = bfalse.
Proof.
  split.
  - destruct f as [[[|]|] H]; intros E; try discriminate; [left|right]; now apply bf_ext.
  - now intros [->| ->].
Qed.

Lemma isConstant_iff f : isConstant f = true <-> forall e e', eval f e = eval f e'.
Proof.
  rewrite isConstant_spec. split; [now intros [->| ->]|].
  intros H. destruct (eval f (fun _ => false)) eqn:E; [left|right];
    apply bf_ext; intros e; now rewrite (H e (fun _ => false)).
Qed.

Lemma bleq_spec f g : bleq f g = true <-> forall e, eval f e = true -> eval g e = true.
Proof.
  unfold bleq. rewrite isFalse_spec. split; intros H e.
  - specialize (H e). rewrite eval_and, eval_not in H.
    destruct (eval f e), (eval g e); cbn in H; congruence.
  - specialize (H e). rewrite eval_and, eval_not. destruct (eval f e), (eval g e); auto.
    symmetry; apply H; reflexivity.
Qed.

(** Functions that only depend on a set of variables. *)
Definition dep (P : nat -> Prop) (f : BF) : Prop :=
  forall e e', (forall v, P v -> e v = e' v) -> eval f e = eval f e'.

Lemma dep_true P : dep P btrue. Proof. intros e e' _. reflexivity. Qed.
Lemma dep_false P : dep P bfalse. Proof. intros e e' _. reflexivity. Qed.
Lemma dep_var (P : nat -> Prop) x : P x -> dep P (bvar x).
Proof. intros H e e' He. rewrite !eval_var. auto. Qed.
Lemma dep_not P f : dep P f -> dep P (bnot f).
Proof. intros H e e' He. rewrite !eval_not. f_equal; auto. Qed.
Lemma dep_and P f g : dep P f -> dep P g -> dep P (band f g).
Proof. intros H H' e e' He. rewrite !eval_and. f_equal; auto. Qed.
Lemma dep_or P f g : dep P f -> dep P g -> dep P (bor f g).
Proof. intros H H' e e' He. rewrite !eval_or. f_equal; auto. Qed.
Lemma dep_xor P f g : dep P f -> dep P g -> dep P (bxor f g).
Proof. intros H H' e e' He. rewrite !eval_xor. f_equal; auto. Qed.
Lemma dep_imp P f g : dep P f -> dep P g -> dep P (bimp f g).
Proof. intros H H'. apply dep_or; auto. now apply dep_not. Qed.
Lemma dep_weaken (P Q : nat -> Prop) f : (forall v, P v -> Q v) -> dep P f -> dep Q f.
Proof. intros HPQ H e e' He. apply H. auto. Qed.

Lemma dep_restrict (P Q : nat -> Prop) x b f : dep P f -> (forall v, P v -> v <> x -> Q v) ->
  dep Q (brestrict x b f).
Proof.
  intros H HPQ e e' He. rewrite !eval_restrict. apply H. intros v Hv. unfold upd.
  destruct (Nat.eqb_spec v x); auto.
Qed.

Lemma dep_exists vs : forall (P Q : nat -> Prop) f, dep P f -> (forall v, P v -> ~ In v vs -> Q v) ->
  dep Q (bexists vs f).
Proof.
  induction vs as [|x vs IH]; intros P Q f H HPQ; cbn [bexists].
  - eapply dep_weaken; [|exact H]. intros; apply HPQ; auto.
  - apply dep_or; (eapply dep_restrict; [apply (IH P (fun v => P v /\ ~ In v vs)); auto|];
      cbn; intros v [Hv Hi] Hne; apply HPQ; auto; cbn; intros [->|]; tauto).
Qed.

Lemma dep_forall vs : forall (P Q : nat -> Prop) f, dep P f -> (forall v, P v -> ~ In v vs -> Q v) ->
  dep Q (bforall vs f).
Proof.
  induction vs as [|x vs IH]; intros P Q f H HPQ; cbn [bforall].
  - eapply dep_weaken; [|exact H]. intros; apply HPQ; auto.
  - apply dep_and; (eapply dep_restrict; [apply (IH P (fun v => P v /\ ~ In v vs)); auto|];
      cbn; intros v [Hv Hi] Hne; apply HPQ; auto; cbn; intros [->|]; tauto).
Qed.

Lemma dep_subst (P Q : nat -> Prop) sg f : dep P f -> (forall v, P v -> Q (sg v)) -> dep Q (bsubst sg f).
Proof. intros H HPQ e e' He. rewrite !eval_subst. apply H. auto. Qed.

Lemma dep_swap (P Q : nat -> Prop) xs ys f : dep P f -> (forall v, P v -> Q (swapf xs ys v)) ->
  dep Q (bswap xs ys f).
Proof. apply dep_subst. Qed.

Create HintDb bf.
#[global] Hint Rewrite eval_true eval_false eval_var eval_not eval_and eval_or eval_xor eval_imp
  eval_restrict eval_subst eval_swap : bf.
#[global] Opaque band bor bxor bimp bnot bexists bforall bswap bsubst brestrict bvar.
