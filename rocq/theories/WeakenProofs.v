(** * Proofs about weakened safety assumptions *)

From Coq Require Import ZArith Arith List Bool Lia Sorted.
From Verif Require Import BDD Loop Spec VarTypes Synth Sem FixBase Verdict Explicit Cnf CnfProofs Assume AssumeSpec AssumeProofs Weaken WeakenSpec.
Import ListNotations.

(** ** Clauses *)

(** The value of a clause for a valuation of the BDD variables. *)
Definition clauseE (v : list Z) (e : nat -> bool) : bool :=
  existsb (fun i => entry_holds (nth i v 0%Z) (e i)) (seq 0 (length v)).

Lemma value_tv s t i : value s t i = tv s t i.
Proof. reflexivity. Qed.
Lemma clause_holds_E v s t : clause_holds v s t = clauseE v (tv s t).
Proof. reflexivity. Qed.

Lemma existsb_ext_in {A} (f g : A -> bool) l : (forall x, In x l -> f x = g x) -> existsb f l = existsb g l.
Proof.
  induction l as [|a l IH]; intros H; cbn; auto. rewrite H by (now left). f_equal. apply IH. intros x Hx. apply H. now right.
Qed.
Lemma clauseE_app v z e : clauseE (v ++ [z]) e = clauseE v e || entry_holds z (e (length v)).
Proof.
  unfold clauseE. rewrite app_length. cbn [length]. rewrite seq_app, existsb_app. cbn [seq existsb].
  rewrite app_nth2, Nat.sub_diag by lia. cbn [nth]. rewrite orb_false_r. f_equal.
  apply existsb_ext_in. intros i Hi. apply in_seq in Hi. now rewrite app_nth1 by lia.
Qed.
Lemma clauseE_true v e : clauseE v e = true <-> exists i, entry_holds (nth i v 0%Z) (e i) = true.
Proof.
  unfold clauseE. rewrite existsb_exists. split.
  - intros (i & _ & H). eauto.
  - intros (i & H). exists i. split; auto. apply in_seq. split; [lia|]. cbn.
    destruct (le_lt_dec (length v) i); auto. rewrite nth_overflow in H by auto. discriminate.
Qed.
Lemma literals_holds v v' e : literals_of v v' -> clauseE v e = true -> clauseE v' e = true.
Proof.
  intros [_ H]. rewrite !clauseE_true. intros (i & Hi). exists i. destruct (H i) as [E|E]; rewrite E in Hi; auto. discriminate.
Qed.

(** ** The loop over the variables *)
Definition entries (v : list Z) : Prop := forall i, nth i v 0%Z = 0%Z \/ nth i v 0%Z = 1%Z \/ nth i v 0%Z = (-1)%Z.
Lemma entries_app v z : entries v -> z = 0%Z \/ z = 1%Z \/ z = (-1)%Z -> entries (v ++ [z]).
Proof.
  intros H Hz i. destruct (lt_eq_lt_dec i (length v)) as [[L|L]|L].
  - rewrite app_nth1 by lia. apply H.
  - subst i. rewrite app_nth2, Nat.sub_diag by lia. exact Hz.
  - left. apply nth_overflow. rewrite app_length. cbn. lia.
Qed.
Section LITERALS.
  Variables (P : nat -> Prop) (n : nat) (current : BF) (e0 : nat -> bool).
  Hypothesis Pdec : forall v, P v \/ ~ P v.
  Hypothesis Hd : dep P current.

  Definition good (i : nat) (clause : BF) (ints : list Z) : Prop :=
    (length ints = i /\ entries ints) /\
    (forall e, eval clause e = true <-> clauseE ints e = false /\ (forall v, i <= v < n -> e v = e0 v)) /\
    (forall v, ~ P v -> nth v ints 0%Z = 0%Z) /\
    (forall e, eval clause e = true -> eval current e = false) /\
    eval clause e0 = true.

  Lemma literalStep_spec i clause ints k : good i clause ints -> k <= i -> i < n ->
    exists clause' ints' k', literalStep current (clause, ints, k) i = (clause', ints', k') /\
      good (S i) clause' ints' /\ k' <= S i.
  Proof.
    intros ((HL & HEn) & HC & HP & HF & H0) Hki Hi. unfold literalStep.
    assert (HI : forall e b, clauseE ints (upd e i b) = clauseE ints e).
    { intros e b. unfold clauseE. apply existsb_ext_in. intros v Hv. apply in_seq in Hv. now rewrite upd_other by lia. }
    destruct (isFalse (band (bexists [i] clause) current)) eqn:E.
    - rewrite isFalse_spec in E. exists (bexists [i] clause), (ints ++ [0%Z]), k. split; [reflexivity|]. split; [|lia].
      split; [split; [rewrite app_length; cbn; lia|apply entries_app; auto]|]. split; [|split; [|split]].
      + intros e. rewrite clauseE_app, HL. cbn [entry_holds]. change (entry_holds 0 (e i)) with false. rewrite orb_false_r.
        rewrite eval_exists. split.
        * intros (e' & Ha & He). apply HC in He. destruct He as [H1 H2].
          assert (A : forall v, v <> i -> e v = e' v) by (intros v Hv; apply Ha; cbn; lia). split.
          -- rewrite <- H1. unfold clauseE. apply existsb_ext_in. intros v Hv. apply in_seq in Hv. now rewrite A by lia.
          -- intros v Hv. rewrite A by lia. apply H2. lia.
        * intros [H1 H2]. exists (upd e i (e0 i)). split.
          -- intros v Hv. symmetry. apply upd_other. cbn in Hv. lia.
          -- apply HC. rewrite HI. split; auto. intros v Hv. destruct (Nat.eq_dec v i) as [->|Hn]; [apply upd_same|].
             rewrite upd_other by auto. apply H2. lia.
      + intros v Hv. destruct (lt_eq_lt_dec v i) as [[L|L]|L].
        * rewrite app_nth1 by lia. auto.
        * subst v. rewrite app_nth2, HL, Nat.sub_diag by lia. reflexivity.
        * apply nth_overflow. rewrite app_length. cbn. lia.
      + intros e He. specialize (E e). rewrite eval_and, He in E. exact E.
      + rewrite eval_exists. exists e0. split; auto. intros v _. reflexivity.
    - assert (Pi : P i).
      { destruct (Pdec i) as [Pi|Pi]; auto. exfalso. apply isFalse_false in E. destruct E as (e & He).
        rewrite eval_and in He. apply andb_true_iff in He. destruct He as [H1 H2].
        rewrite eval_exists in H1. destruct H1 as (e' & Ha & He'). apply HF in He'.
        rewrite (Hd e e') in H2; [congruence|]. intros v Hv. apply Ha. cbn. intros [X|[]]. subst v. auto. }
      set (z := if e0 i then (-1)%Z else 1%Z).
      assert (Es : (if isFalse (band clause (bvar i)) then (clause, ints ++ [1%Z], S k) else (clause, ints ++ [(-1)%Z], S k)) = (clause, ints ++ [z], S k)).
      { destruct (isFalse (band clause (bvar i))) eqn:F.
        - rewrite isFalse_spec in F. specialize (F e0). rewrite eval_and, eval_var, H0 in F. cbn in F. unfold z. now rewrite F.
        - apply isFalse_false in F. destruct F as (e & F). rewrite eval_and, eval_var in F. apply andb_true_iff in F.
          destruct F as [F1 F2]. apply HC in F1. destruct F1 as [_ F1]. rewrite (F1 i) in F2 by lia. unfold z. now rewrite F2. }
      rewrite Es. exists clause, (ints ++ [z]), (S k). split; [reflexivity|]. split; [|lia].
      split; [split; [rewrite app_length; cbn; lia|apply entries_app; auto; unfold z; destruct (e0 i); auto]|]. split; [|split; [|split]]; auto.
      + assert (Z : forall b, entry_holds z b = negb (Bool.eqb b (e0 i))) by (intros b; unfold z; destruct (e0 i), b; reflexivity).
        intros e. rewrite HC, clauseE_app, HL, Z, orb_false_iff, negb_false_iff, eqb_true_iff. split.
        * intros [H1 H2]. split; [split; auto; apply H2; lia|]. intros v Hv. apply H2. lia.
        * intros [[H1 H2] H3]. split; auto. intros v Hv. destruct (Nat.eq_dec v i) as [->|Hn]; auto. apply H3. lia.
      + intros v Hv. destruct (lt_eq_lt_dec v i) as [[L|L]|L].
        * rewrite app_nth1 by lia. auto.
        * subst v. contradiction.
        * apply nth_overflow. rewrite app_length. cbn. lia.
  Qed.

  Lemma literals_spec m : forall i clause ints k, i + m = n -> good i clause ints -> k <= i ->
    exists clause' ints' k', fold_left (literalStep current) (seq i m) (clause, ints, k) = (clause', ints', k') /\
      good n clause' ints' /\ k' <= n.
  Proof.
    induction m as [|m IH]; intros i clause ints k Hi HG Hk; cbn [seq fold_left].
    - rewrite Nat.add_0_r in Hi. subst i. eauto 6.
    - destruct (literalStep_spec i clause ints k HG Hk) as (c' & i' & k' & -> & G & K); [lia|].
      apply IH; auto. lia.
  Qed.
End LITERALS.

(** ** Sets of vectors *)
Lemma insertClause_in v l x : In x (insertClause v l) <-> x = v \/ In x l.
Proof.
  induction l as [|w l IH]; cbn [insertClause].
  - cbn. intuition auto.
  - set (cmp := fix cmp (a b : list Z) : comparison :=
               match a, b with
               | [], [] => Eq
               | [], _ => Lt
               | _, [] => Gt
               | x :: a, y :: b => match (x ?= y)%Z with Eq => cmp a b | r => r end
               end).
    assert (HE : forall a b, cmp a b = Eq -> a = b).
    { induction a as [|p a IHa]; intros [|q b]; cbn; try discriminate; auto.
      destruct (Z.compare_spec p q) as [->| |]; try discriminate. intros Hc. f_equal. auto. }
    destruct (cmp v w) eqn:E; cbn [In].
    + apply HE in E. subst w. intuition auto.
    + intuition auto.
    + rewrite IH. intuition auto.
Qed.

Lemma before_trans a : forall b d, before a b -> before b d -> before a d.
Proof.
  induction a as [|x a IH]; intros [|y b] [|z d]; cbn; auto; try tauto.
  intros [H1|[-> H1]] [H2|[-> H2]]; [left; lia|left; lia|left; lia|right]. split; auto. eapply IH; eauto.
Qed.
Lemma insertClause_sorted v l : StronglySorted before l -> StronglySorted before (insertClause v l).
Proof.
  induction 1 as [|w l HS IH HF]; cbn [insertClause].
  - repeat constructor.
  - set (cmp := fix cmp (a b : list Z) : comparison :=
               match a, b with
               | [], [] => Eq
               | [], _ => Lt
               | _, [] => Gt
               | x :: a, y :: b => match (x ?= y)%Z with Eq => cmp a b | r => r end
               end).
    assert (HE : forall a b, match cmp a b with Eq => True | Lt => before a b | Gt => before b a end).
    { induction a as [|p a IHa]; intros [|q b]; cbn; auto.
      destruct (Z.compare_spec p q) as [->|L|L]; auto. specialize (IHa b). destruct (cmp a b); auto. }
    specialize (HE v w). destruct (cmp v w).
    + now constructor.
    + constructor; [now constructor|]. constructor; auto. eapply Forall_impl; [|exact HF]. intros u. now apply before_trans.
    + constructor; auto. apply Forall_forall. intros u Hu. apply insertClause_in in Hu. destruct Hu as [->|Hu]; auto.
      rewrite Forall_forall in HF. auto.
Qed.
Lemma filterClauses_sorted clauses : forall soFar out, StronglySorted before out ->
  StronglySorted before (filterClauses clauses soFar out).
Proof.
  induction clauses as [|v clauses IH]; intros soFar out H; cbn [filterClauses]; auto.
  destruct (filterLiterals _ _ _ _ _) as [filtered committed]. apply IH. now apply insertClause_sorted.
Qed.

Section CTX.
  Variable c : ctx.
  Hypothesis Hwf : wf c.
  Let Hk := wf_kinds c Hwf.
  Local Notation n := (length (varTypes c)).
  Local Notation P := (isPrePostInV c).

  Lemma P_dec v : P v \/ ~ P v.
  Proof.
    unfold isPrePostInV. destruct (le_lt_dec n v); [right; lia|]. destruct (Nat.even v); [left; auto|].
    destruct (isOut c (Nat.div2 v)); [right|left; auto]. intros [_ [X|X]]; discriminate.
  Qed.
  Lemma P_any f : dep P f -> dep (fun v => v < n) f.
  Proof. apply dep_weaken. now intros v [H _]. Qed.

  (** The game for other safety assumptions. *)
  Definition gameW (safety : BF) : game := game_of (withAssumptions c safety (livenessAssumptions c)).
  Lemma gameW_wf safety : dep P safety -> wf (withAssumptions c safety (livenessAssumptions c)).
  Proof. intros H. apply with_wf; auto; [apply (wf_asm c Hwf)|apply (wf_asm_ne c Hwf)]. Qed.
  Lemma gameW_fewer a b : (forall e, eval a e = true -> eval b e = true) -> fewer (gameW a) (gameW b).
  Proof.
    intros H. constructor; auto; try reflexivity.
    - intros s t. cbn. unfold trans. apply H.
    - intros p Hp. exact Hp.
  Qed.
  Lemma realizable_stronger a b : (forall e, eval a e = true -> eval b e = true) -> realizable (gameW b) -> realizable (gameW a).
  Proof. intros H. apply fewer_realizable. now apply gameW_fewer. Qed.

  Lemma realizableWith_spec safety : dep P safety ->
    (realizableWith c safety = Some true /\ realizable (gameW safety)) \/
    (realizableWith c safety = Some false /\ ~ realizable (gameW safety)).
  Proof.
    intros H. unfold realizableWith. destruct (check_cases _ (gameW_wf safety H)) as [[-> R]|[-> R]]; [left; auto|right].
    split; auto. intros (f & Hf). destruct (R f) as (x & Hx). apply Hx, Hf.
  Qed.

  (** *** Fewer variables *)
  Lemma fewerVars_spec vars : forall current, dep P current ->
    exists current', fewerVars c vars current = Some current' /\ dep P current' /\
      (forall e, eval current e = true -> eval current' e = true) /\
      (realizable (gameW current) -> realizable (gameW current')).
  Proof.
    induction vars as [|i vars IH]; intros current HD; cbn [fewerVars].
    - exists current. auto.
    - assert (HD' : dep P (bexists [i] current)) by (eapply dep_exists; [exact HD|auto]).
      destruct (realizableWith_spec _ HD') as [[-> R]|[-> _]]; [|now apply IH].
      destruct (IH _ HD') as (cur' & E & D & S & T). exists cur'. split; [auto|]. split; [auto|]. split; [|auto].
      intros e He. apply S. rewrite eval_exists. exists e. split; auto. intros v _. reflexivity.
  Qed.

  (** No variable of the list can be dropped afterwards. *)
  Lemma fewerVars_keeps i vars : forall current current', fewerVars c vars current = Some current' ->
    dep (fun v => v <> i) current -> dep (fun v => v <> i) current'.
  Proof.
    induction vars as [|j vars IH]; intros current current' E HD; cbn [fewerVars] in E.
    - now injection E as <-.
    - destruct (realizableWith _ _) as [[|]|]; [| |discriminate]; apply IH in E; auto.
      eapply dep_exists; [exact HD|auto].
  Qed.
  Lemma fewerVars_minimal vars : forall current current', dep P current -> fewerVars c vars current = Some current' ->
    forall i, In i vars -> dep (fun v => v <> i) current' \/ ~ realizable (gameW (bexists [i] current')).
  Proof.
    induction vars as [|j vars IH]; intros current current' HD E i Hi; [destruct Hi|]. cbn [fewerVars] in E.
    assert (HD' : dep P (bexists [j] current)) by (eapply dep_exists; [exact HD|auto]).
    destruct (realizableWith_spec _ HD') as [[X R]|[X R]]; rewrite X in E.
    - destruct Hi as [->|Hi]; [left|now apply (IH _ _ HD' E)]. apply (fewerVars_keeps i) in E; auto.
      eapply dep_exists; [exact HD|]. intros v _ Hv ->. apply Hv. now left.
    - destruct Hi as [->|Hi]; [right|now apply (IH _ _ HD E)]. intros R'. apply R. revert R'.
      destruct (fewerVars_spec vars current HD) as (cur' & E' & _ & HS & _). rewrite E in E'. injection E' as <-.
      apply realizable_stronger. intros e. rewrite !eval_exists. intros (e' & H1 & H2). exists e'. auto.
  Qed.

  (** *** Clauses *)
  Definition goodClause (k : nat) (v : list Z) (b : BF) : Prop :=
    k <= n /\ (length v = n /\ entries v) /\ dep P b /\ forall e, eval b e = clauseE v e.
  Definition goodEntry (x : nat * (list Z * BF)) : Prop := goodClause (fst x) (fst (snd x)) (snd (snd x)).

  Definition inside (Q : nat -> Prop) (v : list Z) : Prop := forall i, ~ Q i -> nth i v 0%Z = 0%Z.
  Lemma clausesBody_gen Q current clauses : (forall v, Q v \/ ~ Q v) -> (forall v, Q v -> P v) -> dep Q current ->
    (isTrue current = true /\ clausesBody c (current, clauses) = Done clauses) \/
    exists clause k v, clausesBody c (current, clauses) = Cont (bor current clause, clauses ++ [(k, (v, bnot clause))]) /\
      dep Q clause /\ goodClause k v (bnot clause) /\ inside Q v /\
      (forall e, eval clause e = true -> eval current e = false) /\
      exists e, eval clause e = true.
  Proof.
    intros Q_dec HQ HD. assert (HDP : dep P current) by (now apply dep_weaken with (2 := HD)). unfold clausesBody. destruct (isTrue current) eqn:T; [left; auto|right].
    apply isTrue_false in T. destruct T as (e1 & T).
    destruct (first_cube c (bnot current) e1) as (e0 & H0 & HC).
    - apply dep_not. now apply (P_any current).
    - now rewrite eval_not, T.
    - rewrite eval_not, negb_true_iff in H0.
      assert (G0 : good Q n current e0 0 (determinize (bnot current) (allVars c)) []).
      { split; [split; [reflexivity|intros [|i]; auto]|]. split; [|split; [|split]].
        - intros e. rewrite (HC e). split; intros [_ X]; (split; [|exact X]); [reflexivity|intros v []].
        - intros v _. destruct v; reflexivity.
        - intros e He. apply HC in He. destruct He as [_ He]. rewrite <- H0. apply (P_any current HDP). intros v Hv. apply He. lia.
        - apply HC. split; auto. }
      destruct (literals_spec Q n current e0 Q_dec HD n 0 _ [] 0 eq_refl G0 (le_n 0)) as (clause & v & k & E & G & K).
      unfold allVars in *. rewrite E. exists clause, k, v. split; [reflexivity|].
      destruct G as (HL & HE & HP & HF & HT).
      assert (HE' : forall e, eval clause e = negb (clauseE v e)).
      { intros e. apply eq_true_iff_eq. rewrite HE, negb_true_iff. split; [intros [X _]; exact X|]. intros X. split; auto. lia. }
      assert (DC : dep Q clause).
      { intros e e' Ha. rewrite !HE'. f_equal. unfold clauseE. apply existsb_ext_in. intros i _.
        destruct (Q_dec i) as [Pi|Pi]; [now rewrite (Ha i Pi)|]. rewrite (HP i Pi). reflexivity. }
      split; [exact DC|]. split; [|split; [exact HP|split; [exact HF|eauto]]].
      split; [exact K|]. split; [exact HL|]. split; [apply dep_not; now apply dep_weaken with (2 := DC)|].
      intros e. rewrite eval_not, HE', negb_involutive. reflexivity.
  Qed.
  Lemma clausesBody_spec current clauses : dep P current ->
    (isTrue current = true /\ clausesBody c (current, clauses) = Done clauses) \/
    exists clause k v, clausesBody c (current, clauses) = Cont (bor current clause, clauses ++ [(k, (v, bnot clause))]) /\
      dep P clause /\ goodClause k v (bnot clause) /\
      (forall e, eval clause e = true -> eval current e = false) /\
      exists e, eval clause e = true.
  Proof.
    intros HD. destruct (clausesBody_gen P current clauses P_dec (fun v H => H) HD) as [X|(cl & k & v & E & H1 & H2 & _ & H3)]; auto.
    right. exists cl, k, v. auto.
  Qed.
  (** Variables that do not matter do not occur in the clauses. *)
  Lemma clauses_inside Q current clauses : (forall v, Q v \/ ~ Q v) -> (forall v, Q v -> P v) -> dep Q current ->
    run (clausesBody c) (fpFuel c) (current, []) = Some clauses -> Forall (fun x => inside Q (fst (snd x))) clauses.
  Proof.
    intros Q_dec HQ HD E. apply run_Runs in E.
    set (Inv := fun st : BF * list (nat * (list Z * BF)) => dep Q (fst st) /\ Forall (fun x => inside Q (fst (snd x))) (snd st)).
    destruct (Runs_last (clausesBody c) Inv _ _ E) as ([cur cl] & [D F] & Ed).
    - split; [exact HD|constructor].
    - intros [cur cl] st [D F] Ec. cbn [fst snd] in *.
      destruct (clausesBody_gen Q cur cl Q_dec HQ D) as [[_ X]|(clause & k & v & X & DC & _ & IN & _)]; rewrite X in Ec; [discriminate|].
      injection Ec as <-. split; cbn [fst snd]; [now apply dep_or|]. apply Forall_app. split; auto.
    - cbn [fst snd] in *.
      destruct (clausesBody_gen Q cur cl Q_dec HQ D) as [[_ X]|(clause & k & v & X & _)]; rewrite X in Ed; [|discriminate].
      now injection Ed as <-.
  Qed.

  Lemma clauses_run current : dep P current ->
    exists clauses, run (clausesBody c) (fpFuel c) (current, []) = Some clauses /\ Forall goodEntry clauses /\
      forall e, eval current e = forallb (fun x => eval (snd (snd x)) e) clauses.
  Proof.
    intros HD.
    set (Inv := fun st : BF * list (nat * (list Z * BF)) => dep P (fst st) /\ Forall goodEntry (snd st) /\
      forall e, eval current e = eval (fst st) e && forallb (fun x => eval (snd (snd x)) e) (snd st)).
    assert (Hs : forall st st', Inv st -> clausesBody c st = Cont st' -> Inv st' /\ total n (bnot (fst st')) < total n (bnot (fst st))).
    { intros [cur cl] st' (D & F & HE) E. cbn [fst snd] in *.
      destruct (clausesBody_spec cur cl D) as [[_ X]|(clause & k & v & X & DC & GC & HF & (e & He))]; rewrite X in E; [discriminate|].
      injection E as <-. cbn [fst snd]. split.
      - split; [now apply dep_or|]. split.
        + apply Forall_app. split; auto.
        + intros x. cbn [fst snd]. rewrite HE, eval_or, forallb_app. cbn [forallb snd]. rewrite eval_not, andb_true_r.
          specialize (HF x). destruct (eval clause x); [rewrite HF by auto; cbn; now rewrite andb_false_r|].
          cbn. now rewrite orb_false_r, andb_true_r.
      - apply filter_length_lt.
        + intros l _. rewrite !eval_not, eval_or. destruct (eval cur (ofVec l)); cbn; auto.
        + exists (toVec n e). split; [apply toVec_in|]. rewrite !eval_not, eval_or.
          rewrite (eval_toVec n cur) by (now apply P_any). rewrite (eval_toVec n clause) by (now apply P_any).
          rewrite He, (HF e He). auto. }
    assert (H0 : Inv (current, [])).
    { split; [exact HD|]. split; [constructor|]. intros e. cbn. now rewrite andb_true_r. }
    destruct (run_total (clausesBody c) Inv (fun st => total n (bnot (fst st))) (fpFuel c) (current, []) H0) as (r & Er & Hr).
    - intros st HI. destruct (clausesBody c st) as [st'|r|] eqn:E; [now apply Hs|auto|].
      destruct st as [cur cl]. destruct (clausesBody_spec cur cl (proj1 HI)) as [[_ X]|(cl' & k & v & X & _)]; congruence.
    - cbn [fst]. apply Nat.le_lt_trans with (2 ^ n).
      + unfold total. rewrite <- vectors_length. apply filter_length_all.
      + unfold fpFuel. apply Nat.pow_lt_mono_r; lia.
    - exists r. split; auto. destruct (Runs_last (clausesBody c) Inv _ _ Hr H0) as ([cur cl] & HI & E).
      + intros s s' HI E. now apply (Hs s s').
      + destruct HI as (D & F & HE). cbn [fst snd] in *.
        destruct (clausesBody_spec cur cl D) as [[T X]|(cl' & k & v & X & _)]; rewrite X in E; [|discriminate].
        injection E as <-. split; auto. intros e. rewrite HE. rewrite isTrue_spec in T. now rewrite T.
  Qed.

  Lemma longestFirst_in clauses x : Forall goodEntry clauses -> In x (longestFirst c clauses) <-> In x (map snd clauses).
  Proof.
    intros F. unfold longestFirst. rewrite in_flat_map, in_map_iff. split.
    - intros (k & _ & Hx). apply in_map_iff in Hx. destruct Hx as (y & <- & Hy). apply filter_In in Hy. exists y. tauto.
    - intros (y & <- & Hy). exists (fst y). split.
      + apply -> in_rev. apply in_seq. rewrite Forall_forall in F. destruct (F y Hy) as [K _]. lia.
      + apply in_map. apply filter_In. split; auto. apply Nat.eqb_refl.
  Qed.

  (** *** Removing clauses *)
  Definition withA (l : list (list Z)) : game := with_assumptions (game_of c) (map clause_holds l) (g_liveA (game_of c)).
  Definition allE (l : list (list Z)) (e : nat -> bool) : bool := forallb (fun v => clauseE v e) l.

  Lemma withA_safe l s t : g_safeE (withA l) s t = allE l (tv s t).
  Proof. cbn. induction l as [|v l IH]; cbn; auto. unfold allE in IH. now rewrite IH. Qed.
  Lemma fewer_gameW_withA a l : (forall e, eval a e = true -> allE l e = true) -> fewer (gameW a) (withA l).
  Proof.
    intros H. constructor; auto; try reflexivity.
    - intros s t Hs. rewrite withA_safe. apply H. exact Hs.
    - intros p Hp. exact Hp.
  Qed.
  Lemma fewer_withA_gameW a l : (forall e, allE l e = true -> eval a e = true) -> fewer (withA l) (gameW a).
  Proof.
    intros H. constructor; auto; try reflexivity.
    - intros s t. rewrite withA_safe. apply H.
    - intros p Hp. exact Hp.
  Qed.
  Lemma fewer_withA l l' : (forall e, allE l e = true -> allE l' e = true) -> fewer (withA l) (withA l').
  Proof.
    intros H. constructor; auto; try reflexivity.
    - intros s t. rewrite !withA_safe. apply H.
    - intros p Hp. exact Hp.
  Qed.

  Definition goodPair (x : list Z * BF) : Prop := (length (fst x) = n /\ entries (fst x)) /\ dep P (snd x) /\ forall e, eval (snd x) e = clauseE (fst x) e.
  Definition conj (l : list (list Z * BF)) : BF := fold_left band (map snd l) btrue.

  Lemma conj_eval l e : eval (conj l) e = forallb (fun x => eval (snd x) e) l.
  Proof.
    unfold conj. assert (G : forall acc, eval (fold_left band (map snd l) acc) e = eval acc e && forallb (fun x => eval (snd x) e) l).
    { induction l as [|a l IH]; intros acc; cbn [map fold_left forallb]; [now rewrite andb_true_r|].
      rewrite IH, eval_and. now rewrite andb_assoc. }
    rewrite G. reflexivity.
  Qed.
  Lemma conj_dep l : Forall goodPair l -> dep P (conj l).
  Proof.
    intros F e e' Ha. rewrite !conj_eval. induction F as [|x l (_ & D & _) F IH]; cbn; auto. rewrite IH. f_equal. auto.
  Qed.
  Lemma conj_in l e v : Forall goodPair l -> eval (conj l) e = true -> In v (map fst l) -> clauseE v e = true.
  Proof.
    intros F. rewrite conj_eval, forallb_forall. intros H Hv. apply in_map_iff in Hv. destruct Hv as (x & <- & Hx).
    rewrite Forall_forall in F. destruct (F x Hx) as (_ & _ & E). rewrite <- E. auto.
  Qed.

  Lemma essential_spec clauses : Forall goodPair clauses -> forall found ints, dep P found ->
    (forall e, eval found e = allE ints e) ->
    exists out, essential c clauses found ints = Some out /\ incl ints out /\
      (forall v, In v out -> In v ints \/ In v (map fst clauses)) /\
      (realizable (gameW (band (conj clauses) found)) -> realizable (withA out)) /\
      (forall v, In v out -> In v ints \/ ~ realizable (withA (remove (list_eq_dec Z.eq_dec) v out))).
  Proof.
    induction 1 as [|[v b] clauses (HL & HD & HE) F IH]; intros found ints DF HF; cbn [essential].
    - exists ints. split; auto. split; [apply incl_refl|]. split; [auto|]. split; [|auto].
      apply fewer_realizable. apply fewer_withA_gameW. intros e He. rewrite eval_and, conj_eval, HF, He. reflexivity.
    - cbn [fst snd] in *. fold (conj clauses).
      assert (D : dep P (band (conj clauses) found)) by (apply dep_and; auto; now apply conj_dep).
      destruct (realizableWith_spec _ D) as [[-> R]|[-> R]].
      + destruct (IH found ints DF HF) as (out & E & I1 & I2 & I3 & I4). exists out. split; auto. split; auto. split.
        { intros w Hw. destruct (I2 w Hw); cbn; auto. }
        split; auto.
      + destruct (IH (band found b) (insertClause v ints)) as (out & E & I1 & I2 & I3 & I4).
        * now apply dep_and.
        * intros e. rewrite eval_and, HF, HE. unfold allE. apply eq_true_iff_eq. rewrite andb_true_iff, !forallb_forall. split.
          -- intros [H1 H2] x Hx. apply insertClause_in in Hx. destruct Hx as [->|Hx]; auto.
          -- intros H. split; [intros x Hx|]; apply H, insertClause_in; auto.
        * exists out. split; auto. split; [intros x Hx; apply I1, insertClause_in; auto|]. split; [|split].
          -- intros w Hw. destruct (I2 w Hw) as [X|X]; cbn; auto. apply insertClause_in in X. destruct X as [->|X]; auto.
          -- intros R'. apply I3. eapply realizable_stronger; [|exact R']. intros e. rewrite !eval_and, !conj_eval. cbn [forallb snd].
             destruct (eval b e), (forallb (fun x => eval (snd x) e) clauses), (eval found e); cbn; auto.
          -- intros w Hw. destruct (I4 w Hw) as [X|X]; [|auto]. apply insertClause_in in X. destruct X as [->|X]; [right|auto].
             intros R'. apply R. revert R'. apply fewer_realizable. apply fewer_gameW_withA.
             intros e. rewrite eval_and. intros H. apply andb_true_iff in H. destruct H as [H1 H2].
             unfold allE. apply forallb_forall. intros x Hx. apply in_remove in Hx. destruct Hx as [Hx Hn].
             destruct (I2 x Hx) as [X|X].
             ++ apply insertClause_in in X. destruct X as [X|X]; [contradiction|]. rewrite HF in H2. unfold allE in H2.
                rewrite forallb_forall in H2. auto.
             ++ eapply conj_in; eauto.
  Qed.

  Lemma essentialClauses_spec : exists out, essentialClauses c = Some out /\
    (forall v, In v out -> (length v = n /\ entries v) /\ forall s t, g_safeE (game_of c) s t = true -> clause_holds v s t = true) /\
    (realizable (game_of c) -> realizable (withA out)) /\
    (forall v, In v out -> ~ realizable (withA (remove (list_eq_dec Z.eq_dec) v out))).
  Proof.
    unfold essentialClauses.
    destruct (fewerVars_spec (interestingVars c) (safetyEnv c) (wf_safetyEnv c Hwf)) as (cur & -> & D & S1 & R1).
    destruct (clauses_run cur D) as (cl & -> & F & HE).
    assert (FP : Forall goodPair (longestFirst c cl)).
    { apply Forall_forall. intros x Hx. apply (longestFirst_in cl x F) in Hx. apply in_map_iff in Hx.
      destruct Hx as (y & <- & Hy). rewrite Forall_forall in F. destruct (F y Hy) as (_ & G). exact G. }
    assert (HC : forall e, eval cur e = eval (conj (longestFirst c cl)) e).
    { intros e. rewrite HE, conj_eval. apply eq_true_iff_eq. rewrite !forallb_forall. split.
      - intros H x Hx. apply (longestFirst_in cl x F) in Hx. apply in_map_iff in Hx. destruct Hx as (y & <- & Hy). auto.
      - intros H x Hx. apply H. apply (longestFirst_in cl (snd x) F). now apply in_map. }
    destruct (essential_spec _ FP btrue [] (dep_true _)) as (out & E & _ & I2 & I3 & I4).
    { intros e. reflexivity. }
    exists out. split; auto. split; [|split].
    - intros v Hv. destruct (I2 v Hv) as [[]|X]. split.
      + apply in_map_iff in X. destruct X as (x & <- & Hx). rewrite Forall_forall in FP. apply (FP x Hx).
      + intros s t Hs. rewrite clause_holds_E. eapply conj_in; [exact FP| |exact X]. rewrite <- HC. apply S1. exact Hs.
    - intros R. apply I3. eapply realizable_stronger; [|apply R1; exact R].
      intros e. rewrite eval_and, <- HC. now intros H%andb_true_iff.
    - intros v Hv. destruct (I4 v Hv) as [[]|X]. exact X.
  Qed.

  (** *** The variables that occur *)
  Definition uses (f : BF) (i : nat) : bool := negb (bf_eqb (brestrict i true f) (brestrict i false f)).
  Lemma uses_false f i e b : uses f i = false -> eval f (upd e i b) = eval f e.
  Proof.
    unfold uses. rewrite negb_false_iff, bf_eqb_eq. intros H.
    assert (X : eval f (upd e i true) = eval f (upd e i false)) by (rewrite <- !eval_restrict; now rewrite H).
    assert (Y : eval f e = eval f (upd e i (e i))).
    { apply eval_ext. intros v. destruct (Nat.eq_dec v i) as [->|Hn]; [now rewrite upd_same|now rewrite upd_other by auto]. }
    rewrite Y. destruct b, (e i); auto.
  Qed.
  Lemma uses_dep f : dep P f -> dep (fun v => P v /\ uses f v = true) f.
  Proof.
    intros HD e e' Ha.
    set (mix := fun k v => if Nat.ltb v k then e' v else e v).
    assert (M : forall k, eval f (mix k) = eval f e).
    { induction k as [|k IH]; [apply eval_ext; intros v; unfold mix; now destruct (Nat.ltb_spec v 0); [lia|]|].
      rewrite <- IH.
      assert (X : eval f (mix (S k)) = eval f (upd (mix k) k (e' k))).
      { apply eval_ext. intros v. destruct (Nat.eq_dec v k) as [->|Hn].
        - rewrite upd_same. unfold mix. destruct (Nat.ltb_spec k (S k)); [auto|lia].
        - rewrite upd_other by auto. unfold mix. destruct (Nat.ltb_spec v (S k)), (Nat.ltb_spec v k); auto; lia. }
      rewrite X. destruct (uses f k) eqn:U; [|now apply uses_false].
      apply HD. intros v Hv. destruct (Nat.eq_dec v k) as [->|Hn]; [|now rewrite upd_other by auto].
      rewrite upd_same. unfold mix. destruct (Nat.ltb_spec k k); [lia|]. symmetry. now apply Ha. }
    rewrite <- (M n). apply HD. intros v [Hv _]. unfold mix. destruct (Nat.ltb_spec v n); [auto|lia].
  Qed.
  Lemma uses_relies f i : uses f i = true -> relies (trans f) i.
  Proof.
    unfold uses. rewrite negb_true_iff. intros H. apply bf_eqb_neq in H.
    destruct (isFalse (bxor (brestrict i true f) (brestrict i false f))) eqn:E.
    - exfalso. apply H. rewrite isFalse_spec in E. apply bf_ext. intros e. specialize (E e). rewrite eval_xor in E.
      now apply xorb_eq in E.
    - apply isFalse_false in E. destruct E as (e & E). rewrite eval_xor, !eval_restrict in E.
      exists (fun k => upd e i true (2 * k)), (fun k => upd e i true (2 * k + 1)),
             (fun k => upd e i false (2 * k)), (fun k => upd e i false (2 * k + 1)).
      assert (V : forall e j, value (fun k => e (2 * k)) (fun k => e (2 * k + 1)) j = e j).
      { intros e1 j. unfold value. destruct (even_cases j) as [[k ->]|[k ->]];
          [now rewrite even_double, Nat.div2_double|now rewrite even_double1, div2_double1]. }
      assert (W : forall e, trans f (fun k => e (2 * k)) (fun k => e (2 * k + 1)) = eval f e).
      { intros e1. unfold trans. apply eval_ext. intros v. apply V. }
      split.
      + intros j Hj. rewrite !V. now rewrite !upd_other by auto.
      + rewrite !W. intros X. rewrite X, xorb_nilpotent in E. discriminate.
  Qed.
  Lemma dep_not_relies f i : dep (fun v => v <> i) f -> ~ relies (trans f) i.
  Proof. intros HD (s & t & s' & t' & H & N). apply N. unfold trans. apply HD. exact H. Qed.

  Lemma weakened_variables : (forall i, P i -> In i (interestingVars c)) ->
    exists (A : state -> state -> bool) clauses, essentialClauses c = Some clauses /\
      (forall s t, g_safeE (game_of c) s t = true -> A s t = true) /\
      (realizable (game_of c) -> realizable (with_assumptions (game_of c) [A] (g_liveA (game_of c)))) /\
      (forall v i, In v clauses -> nth i v 0%Z <> 0%Z -> relies A i) /\
      (forall i A', relies A i -> ~ relies A' i -> (forall s t, A s t = true -> A' s t = true) ->
         ~ realizable (with_assumptions (game_of c) [A'] (g_liveA (game_of c)))).
  Proof.
    intros HI. unfold essentialClauses.
    destruct (fewerVars_spec (interestingVars c) (safetyEnv c) (wf_safetyEnv c Hwf)) as (cur & EF & D & S1 & R1).
    rewrite EF. destruct (clauses_run cur D) as (cl & EC & F & HE). rewrite EC.
    assert (FP : Forall goodPair (longestFirst c cl)).
    { apply Forall_forall. intros x Hx. apply (longestFirst_in cl x F) in Hx. apply in_map_iff in Hx.
      destruct Hx as (y & <- & Hy). rewrite Forall_forall in F. destruct (F y Hy) as (_ & G). exact G. }
    destruct (essential_spec _ FP btrue [] (dep_true _)) as (out & E & _ & I2 & _).
    { intros e. reflexivity. }
    exists (trans cur), out. split; auto. split; [|split; [|split]].
    - intros s t Hs. apply S1. exact Hs.
    - intros R. apply R1 in R. revert R. apply fewer_realizable. constructor; auto; try reflexivity.
      + intros s t. cbn. now rewrite andb_true_r.
      + intros p Hp. exact Hp.
    - intros v i Hv Hi. apply uses_relies. destruct (uses cur i) eqn:U; auto. exfalso. apply Hi.
      destruct (I2 v Hv) as [[]|X]. apply in_map_iff in X. destruct X as (x & <- & Hx).
      apply (longestFirst_in cl x F) in Hx. apply in_map_iff in Hx. destruct Hx as (y & <- & Hy).
      assert (IN : Forall (fun x => inside (fun v => P v /\ uses cur v = true) (fst (snd x))) cl).
      { apply (clauses_inside _ cur); auto; [|now intros v0 [H _]|now apply uses_dep].
        intros v0. destruct (P_dec v0); [|tauto]. destruct (uses cur v0); [auto|right; intros [_ X]; discriminate]. }
      rewrite Forall_forall in IN. apply (IN y Hy). intros [_ X]. congruence.
    - intros i A' HA HN HS.
      destruct (P_dec i) as [Pi|Pi].
      2:{ exfalso. revert HA. apply dep_not_relies. apply dep_weaken with (2 := D). intros v Hv ->. auto. }
      destruct (fewerVars_minimal _ _ _ (wf_safetyEnv c Hwf) EF i (HI i Pi)) as [X|X].
      + exfalso. revert HA. now apply dep_not_relies.
      + intros R. apply X. revert R. apply fewer_realizable. constructor; auto; try reflexivity.
        2:{ intros p Hp. exact Hp. }
        intros s t Hs. cbn. rewrite andb_true_r.
        change (eval (bexists [i] cur) (tv s t) = true) in Hs. rewrite eval_exists in Hs. destruct Hs as (e & He & Hc).
        set (s' := fun k => e (2 * k)). set (t' := fun k => e (2 * k + 1)).
        assert (V : forall j, value s' t' j = e j).
        { intros j. unfold value, s', t'. destruct (even_cases j) as [[k ->]|[k ->]];
            [now rewrite even_double, Nat.div2_double|now rewrite even_double1, div2_double1]. }
        assert (HA' : A' s' t' = true).
        { apply HS. unfold trans. rewrite <- Hc. apply eval_ext. intros v. apply V. }
        destruct (A' s t) eqn:EA; auto. exfalso. apply HN. exists s, t, s', t'. split; [|congruence].
        intros j Hj. rewrite V. apply He. cbn. intros [Y|[]]. congruence.
  Qed.
End CTX.

(** ** Removing literals *)
Lemma filterLiterals_spec others v : forall i filtered committed,
  exists w, fst (filterLiterals others v i filtered committed) = filtered ++ w /\ literals_of w v.
Proof.
  induction v as [|z v IH]; intros i filtered committed; cbn [filterLiterals].
  - exists []. split; [now rewrite app_nil_r|]. split; auto.
  - assert (G : forall f' y com, f' = filtered ++ [y] -> y = 0%Z \/ y = z ->
      exists w, fst (filterLiterals others v (S i) f' com) = filtered ++ w /\ literals_of w (z :: v)).
    { intros f' y com -> Hy. destruct (IH (S i) (filtered ++ [y]) com) as (w & E & HL & HN). exists (y :: w). split.
      - rewrite E, <- app_assoc. reflexivity.
      - split; [cbn; now rewrite HL|]. intros [|j]; cbn [nth]; auto. }
    destruct (bf_eqb _ _); eapply G; eauto.
Qed.
Lemma filterClauses_spec clauses : forall soFar out,
  let r := filterClauses clauses soFar out in
  incl out r /\ (forall x, In x r -> In x out \/ exists v, In v clauses /\ literals_of x v) /\
  (forall v, In v clauses -> exists x, In x r /\ literals_of x v).
Proof.
  induction clauses as [|v clauses IH]; intros soFar out; cbn [filterClauses]; cbv zeta.
  - split; [apply incl_refl|]. split; [auto|intros v []].
  - set (next := fold_left _ clauses btrue).
    pose proof (filterLiterals_spec (band soFar next) v 0 [] bfalse) as (w & E & HL).
    destruct (filterLiterals (band soFar next) v 0 [] bfalse) as [filtered committed]. cbn [fst app] in E. subst filtered.
    destruct (IH (band soFar committed) (insertClause w out)) as (I1 & I2 & I3). split; [|split].
    + intros x Hx. apply I1, insertClause_in. auto.
    + intros x Hx. destruct (I2 x Hx) as [X|(u & Hu & X)].
      * apply insertClause_in in X. destruct X as [->|X]; auto. right. exists v. split; auto. now left.
      * right. exists u. split; auto. now right.
    + intros u [<-|Hu]; [|now apply I3]. exists w. split; auto. apply I1, insertClause_in. auto.
Qed.

(** The first clause keeps its literals. *)
Definition star (v : list Z) (j : nat) : bool := negb (0 <? nth j v 0)%Z.
Lemma literalsFrom_false v : forall i acc e, eval acc e = false ->
  (forall j, j < length v -> e (i + j) = star v j) -> eval (literalsFrom v i acc) e = false.
Proof.
  induction v as [|z v IH]; intros i acc e Hacc He; cbn [literalsFrom]; auto.
  apply IH.
  - pose proof (He 0 ltac:(cbn; lia)) as H0. rewrite Nat.add_0_r in H0. unfold star in H0. cbn [nth] in H0.
    destruct (0 <? z)%Z; [rewrite eval_or, eval_var, Hacc, H0; reflexivity|].
    destruct (z <? 0)%Z; [rewrite eval_or, eval_not, eval_var, Hacc, H0; reflexivity|exact Hacc].
  - intros j Hj. specialize (He (S j) ltac:(cbn; lia)). rewrite Nat.add_succ_comm. exact He.
Qed.
Lemma literalsFrom_sound v e : entries v -> clauseE v e = true -> forall acc, eval (literalsFrom v 0 acc) e = true.
Proof.
  intros HE H acc. apply clauseE_true in H. destruct H as (i & H).
  assert (G : forall v i k acc, entry_holds (nth i v 0%Z) (e (k + i)) = true -> eval (literalsFrom v k acc) e = true).
  { clear. intros v. induction v as [|z v IH]; intros i k acc H.
    - destruct i; discriminate.
    - cbn [literalsFrom]. assert (M : forall v k acc, eval acc e = true -> eval (literalsFrom v k acc) e = true).
      { clear. intros v. induction v as [|z v IH]; intros k acc H; cbn [literalsFrom]; auto. apply IH.
        destruct (0 <? z)%Z; [now rewrite eval_or, H|]. destruct (z <? 0)%Z; [now rewrite eval_or, H|auto]. }
      destruct i as [|i].
      + apply M. rewrite Nat.add_0_r in H. cbn [nth] in H. unfold entry_holds in H.
        apply orb_true_iff in H. destruct H as [H|H]; apply andb_true_iff in H; destruct H as [Hz He]; apply Z.eqb_eq in Hz; subst z; cbn.
        * now rewrite eval_or, eval_var, He, orb_true_r.
        * now rewrite eval_or, eval_not, eval_var, He, orb_true_r.
      + apply (IH i). now rewrite Nat.add_succ_comm. }
  exact (G v i 0 acc H).
Qed.

Lemma filterLiterals_keeps others full : entries full -> (forall e, clauseE full e = true -> eval others e = true) ->
  forall v i done filtered committed, full = done ++ v -> length done = i ->
  (forall e, (forall j, j < i -> e j = star full j) -> eval committed e = false) ->
  fst (filterLiterals others v i filtered committed) = filtered ++ v.
Proof.
  intros HE HO. induction v as [|z v IH]; intros i done filtered committed Hf Hl Hc; cbn [filterLiterals].
  - cbn. now rewrite app_nil_r.
  - assert (Ez : nth i full 0%Z = z) by (subst full; rewrite app_nth2, Hl, Nat.sub_diag by lia; reflexivity).
    assert (Es : star full i = negb (0 <? z)%Z) by (unfold star; now rewrite Ez).
    assert (Hf' : full = (done ++ [z]) ++ v) by (rewrite <- app_assoc; exact Hf).
    assert (Hl' : length (done ++ [z]) = S i) by (rewrite app_length; cbn; lia).
    set (literal := if (0 <? z)%Z then bvar i else bnot (bvar i)).
    assert (HLt : forall e, eval literal e = negb (Bool.eqb (e i) (star full i))).
    { intros e. rewrite Es. unfold literal. destruct (0 <? z)%Z; rewrite ?eval_not, ?eval_var; now destruct (e i). }
    destruct (Z.eq_dec z 0) as [Hz|Hz].
    + destruct (bf_eqb _ _).
      * rewrite (IH (S i) (done ++ [z])); [|exact Hf'|exact Hl'|].
        -- rewrite <- app_assoc. now rewrite Hz.
        -- intros e He. apply Hc. intros j Hj. apply He. lia.
      * rewrite (IH (S i) (done ++ [z])); [|exact Hf'|exact Hl'|].
        -- now rewrite <- app_assoc.
        -- intros e He. rewrite eval_or, HLt, (He i) by lia. rewrite Bool.eqb_reflx, orb_false_r. apply Hc. intros j Hj. apply He. lia.
    + destruct (bf_eqb_spec (band others (literalsFrom v (S i) committed)) (band others (bor (literalsFrom v (S i) committed) literal))) as [E|_].
      * exfalso. set (e := upd (star full) i (negb (star full i))).
        assert (X : eval (literalsFrom v (S i) committed) e = false).
        { apply literalsFrom_false.
          - apply Hc. intros j Hj. unfold e. apply upd_other. lia.
          - intros j Hj. unfold e. rewrite upd_other by lia. unfold star. do 2 f_equal. rewrite Hf', app_nth2, Hl' by lia. f_equal. lia. }
        assert (Y : eval others e = true).
        { apply HO, clauseE_true. exists i. rewrite Ez. unfold e. rewrite upd_same, Es. destruct (HE i) as [V|[V|V]]; rewrite Ez in V; rewrite V; [contradiction|reflexivity|reflexivity]. }
        apply (f_equal (fun f => eval f e)) in E. rewrite !eval_and, eval_or, X, Y, HLt in E. unfold e in E. rewrite upd_same in E.
        destruct (star full i); discriminate.
      * rewrite (IH (S i) (done ++ [z])); [|exact Hf'|exact Hl'|].
        -- now rewrite <- app_assoc.
        -- intros e He. rewrite eval_or, HLt, (He i) by lia. rewrite Bool.eqb_reflx, orb_false_r. apply Hc. intros j Hj. apply He. lia.
Qed.

Lemma filterClauses_first v clauses soFar out : entries v -> (forall e, eval soFar e = true) ->
  In v (filterClauses (v :: clauses) soFar out).
Proof.
  intros HE HS. cbn [filterClauses]. set (next := fold_left _ clauses btrue).
  assert (HN : forall e, clauseE v e = true -> eval next e = true).
  { intros e He. unfold next. pose proof (literalsFrom_sound v e HE He bfalse) as L.
    assert (G : forall acc, eval acc e = true -> eval (fold_left (fun acc (_ : list Z) => band acc (literalsFrom v 0 bfalse)) clauses acc) e = true).
    { induction clauses as [|w cl IH]; intros acc Ha; cbn [fold_left]; auto. apply IH. now rewrite eval_and, Ha, L. }
    apply G. reflexivity. }
  pose proof (filterLiterals_keeps (band soFar next) v HE) as K.
  specialize (K ltac:(intros e He; now rewrite eval_and, HS, HN) v 0 [] [] bfalse eq_refl eq_refl ltac:(reflexivity)).
  destruct (filterLiterals (band soFar next) v 0 [] bfalse) as [filtered committed]. cbn [fst app] in K. subst filtered.
  destruct (filterClauses_spec clauses (band soFar committed) (insertClause v out)) as (I1 & _). apply I1, insertClause_in. auto.
Qed.
