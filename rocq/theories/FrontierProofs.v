(** * Proofs: the search of kResilientRealizabilityChecker.py finds the maximal elements *)

From Coq Require Import String List Bool Arith Lia.
From Verif Require Import Structured Resilient.
Import ListNotations.
Local Open Scope list_scope.

Section FrontierProofs.
  Variable A : Type.
  Variables eqA leq : A -> A -> bool.
  Variable succs : A -> list A.
  Variable oracle : A -> pyres bool.
  Variable known : list A.
  Variable P good : A -> Prop.
  Hypothesis eqA_spec : forall x y, eqA x y = true <-> x = y.
  Hypothesis leq_refl : forall x, leq x x = true.
  Hypothesis leq_trans : forall x y z, leq x y = true -> leq y z = true -> leq x z = true.
  Hypothesis succ_spec : forall x a, P x -> In a (succs x) -> P a /\ leq x a = true /\ leq a x = false.
  Hypothesis between : forall x y, P x -> P y -> leq x y = true -> y = x \/ exists a, In a (succs x) /\ leq a y = true.
  Hypothesis oracle_spec : forall x b, P x -> oracle x = Ret b -> (b = true <-> good x).
  Hypothesis antitone : forall x y, P x -> P y -> leq x y = true -> good y -> good x.
  Hypothesis known_good : forall k, In k known -> P k /\ good k.

  Definition covered (res : list A) (x : A) : Prop := forall y, P y -> leq x y = true -> good y -> exists r, In r res /\ leq y r = true.
  Definition maximal (x : A) : Prop := forall y, P y -> leq x y = true -> good y -> y = x.
  Definition Inv (st : frontierState A) : Prop :=
    (forall r, In r (resultStorage A st) -> P r /\ good r /\ maximal r) /\ NoDup (resultStorage A st) /\
    (forall c, In c (cachedFalse A st) -> P c /\ ~ good c).
  Definition Post (st st' : frontierState A) : Prop :=
    Inv st' /\ incl (resultStorage A st) (resultStorage A st') /\
    (forall y, In y (doneStorage A st') -> In y (doneStorage A st) \/ covered (resultStorage A st') y).

  Lemma covered_incl r r' x : incl r r' -> covered r x -> covered r' x.
  Proof. intros I C y Py L G. destruct (C y Py L G) as (q & Hq & Hl). exists q. split; auto. Qed.
  Lemma dominated x res : existsb (leq x) res = true <-> exists r, In r res /\ leq x r = true.
  Proof. apply existsb_exists. Qed.

  Lemma loop_spec rec x : 
    (forall a st st' b, leq x a = true -> leq a x = false -> P a -> Inv st -> (forall y, In y (doneStorage A st) -> leq a y = true -> covered (resultStorage A st) y) ->
       rec st a = Ret (st', b) -> Post st st' /\ covered (resultStorage A st') a /\ (b = true -> exists r, In r (resultStorage A st') /\ leq a r = true)) ->
    forall l st st' b, (forall a, In a l -> P a /\ leq x a = true /\ leq a x = false) -> Inv st ->
      (forall y, In y (doneStorage A st) -> leq x y = true -> leq y x = false -> covered (resultStorage A st) y) ->
      frontierLoop A rec st l = Ret (st', b) ->
      Post st st' /\ (forall a, In a l -> covered (resultStorage A st') a) /\ (b = true -> exists r, In r (resultStorage A st') /\ leq x r = true).
  Proof.
    intros REC. induction l as [|a l IH]; intros st st' b HL I D; cbn [frontierLoop].
    - intros E. injection E as <- <-. split; [split; [exact I|split; [apply incl_refl|auto]]|]. split; [intros a []|discriminate].
    - destruct (rec st a) as [[st1 b1]| |] eqn:E1; cbn [pybind]; intros E; try discriminate E.
      destruct (frontierLoop A rec st1 l) as [[st2 b2]| |] eqn:E2; cbn [pybind] in E; try discriminate E. injection E as <- <-.
      destruct (HL a (or_introl eq_refl)) as (Pa & La & Na).
      assert (D1 : forall y, In y (doneStorage A st) -> leq a y = true -> covered (resultStorage A st) y).
      { intros y Hy Hl. apply D; auto; [now apply (leq_trans x a y)|]. destruct (leq y x) eqn:E; auto. now rewrite (leq_trans a y x Hl E) in Na. }
      destruct (REC a st st1 b1 La Na Pa I D1 E1) as ((I1 & Inc1 & Dn1) & C1 & B1).
      destruct (IH st1 st2 b2) as ((I2 & Inc2 & Dn2) & C2 & B2); auto.
      { intros a' Ha'. apply HL. now right. }
      { intros y Hy Hl Hn. destruct (Dn1 y Hy) as [Hy'|Hc]; [|exact Hc]. apply (covered_incl _ _ _ Inc1). now apply D. }
      split; [split; [exact I2|split]|split].
      + eapply incl_tran; eauto.
      + intros y Hy. destruct (Dn2 y Hy) as [Hy'|Hc]; [|now right]. destruct (Dn1 y Hy') as [Hy''|Hc]; [now left|]. right. now apply (covered_incl _ _ _ Inc2).
      + intros a' [<-|Ha']; [now apply (covered_incl _ _ _ Inc2)|now apply C2].
      + intros Hb. apply orb_true_iff in Hb. destruct Hb as [Hb|Hb]; [|now apply B2].
        destruct (B1 Hb) as (r & Hr & Hl). exists r. split; [now apply Inc2|now apply (leq_trans x a r)].
  Qed.

  Lemma recurse_spec : forall fuel st x st' b, P x -> Inv st ->
    (forall y, In y (doneStorage A st) -> leq x y = true -> covered (resultStorage A st) y) ->
    frontierRecurse A eqA leq succs oracle known fuel st x = Ret (st', b) ->
    Post st st' /\ covered (resultStorage A st') x /\ (b = true -> exists r, In r (resultStorage A st') /\ leq x r = true).
  Proof.
    induction fuel as [|fuel IH]; intros st x st' b Px I D; [discriminate|]. cbn [frontierRecurse].
    assert (REFL : Post st st) by (split; [exact I|]; split; [apply incl_refl|auto]).
    destruct (existsb (eqA x) (doneStorage A st)) eqn:E1.
    { intros E. injection E as <- <-. split; [exact REFL|]. split; [|apply dominated].
      apply existsb_exists in E1. destruct E1 as (y & Hy & Ey). apply eqA_spec in Ey. subst y. apply D; auto. }
    destruct (existsb (fun o => leq o x) (cachedFalse A st)) eqn:E2.
    { intros E. injection E as <- <-. split; [exact REFL|]. split; [|discriminate].
      apply existsb_exists in E2. destruct E2 as (c & Hc & Hl). destruct I as (_ & _ & IC). destruct (IC c Hc) as [Pc Nc].
      intros y Py Hy Gy. elim Nc. apply (antitone c y); auto. now apply (leq_trans c x y). }
    cbn [resultStorage cachedFalse doneStorage].
    set (st0 := mkFrontier A (resultStorage A st) (cachedFalse A st) (x :: doneStorage A st)).
    set (tbc := negb (existsb (leq x) (resultStorage A st)) && negb (existsb (leq x) known)).
    destruct (if tbc then oracle x else Ret true) as [inside| |] eqn:E3; cbn [pybind]; intros E; try discriminate E.
    assert (G : inside = true <-> good x).
    { subst tbc. destruct (existsb (leq x) (resultStorage A st)) eqn:T1; [|destruct (existsb (leq x) known) eqn:T2]; cbn [negb andb] in E3.
      - injection E3 as <-. split; auto. intros _. apply dominated in T1. destruct T1 as (r & Hr & Hl). destruct I as (IR & _). destruct (IR r Hr) as (Pr & Gr & _). now apply (antitone x r).
      - injection E3 as <-. split; auto. intros _. apply dominated in T2. destruct T2 as (k & Hk & Hl). destruct (known_good k Hk). now apply (antitone x k).
      - now apply oracle_spec. }
    assert (I0 : Inv st0) by exact I.
    destruct inside.
    - destruct (frontierLoop A _ st0 (succs x)) as [[st1 b1]| |] eqn:E4; cbn [pybind] in E; try discriminate E.
      destruct (loop_spec (frontierRecurse A eqA leq succs oracle known fuel) x) with (l := succs x) (st := st0) (st' := st1) (b := b1) as ((I1 & Inc & Dn) & C & B); auto.
      { intros y [<-|Hy] Hl Hn; [now rewrite leq_refl in Hn|]. now apply D. }
      assert (CX : forall r, In r (resultStorage A st1) -> leq x r = true -> covered (resultStorage A st1) x).
      { intros r Hr Hl y Py Hy Gy. destruct (between x y Px Py Hy) as [->|(a & Ha & Hay)]; [now exists r|]. now apply (C a Ha y). }
      assert (DN : covered (resultStorage A st1) x -> forall y, In y (doneStorage A st1) -> In y (doneStorage A st) \/ covered (resultStorage A st1) y).
      { intros Cx y Hy. destruct (Dn y Hy) as [[<-|Hy']|Hc]; auto. }
      destruct b1.
      { injection E as <- <-. destruct (B eq_refl) as (r & Hr & Hl). pose proof (CX r Hr Hl) as Cx.
        split; [split; [exact I1|split; [exact Inc|now apply DN]]|split; [exact Cx|intros X; discriminate X]]. }
      destruct (existsb (leq x) (resultStorage A st1)) eqn:E5; injection E as <- <-.
      { apply dominated in E5. destruct E5 as (r & Hr & Hl). pose proof (CX r Hr Hl) as Cx.
        split; [split; [exact I1|split; [exact Inc|now apply DN]]|split; [exact Cx|intros X; discriminate X]]. }
      unfold Post, Inv. cbn [resultStorage cachedFalse doneStorage].
      assert (NX : forall r, In r (resultStorage A st1) -> leq x r = true -> False).
      { intros r Hr Hl. enough (existsb (leq x) (resultStorage A st1) = true) by congruence. apply dominated. eauto. }
      assert (MX : maximal x).
      { intros y Py Hy Gy. destruct (between x y Px Py Hy) as [->|(a & Ha & Hay)]; auto. destruct (C a Ha y Py Hay Gy) as (r & Hr & Hl).
        elim (NX r Hr). now apply (leq_trans x y r). }
      assert (Cx : covered (resultStorage A st1 ++ [x]) x).
      { intros y Py Hy Gy. exists x. split; [apply in_or_app; right; now left|]. rewrite (MX y Py Hy Gy). apply leq_refl. }
      assert (Inc' : incl (resultStorage A st1) (resultStorage A st1 ++ [x])) by (intros r Hr; apply in_or_app; now left).
      destruct I1 as (IR & IN & IC). split; [split; [split; [|split]|split]|split].
      + intros r H. apply in_app_or in H. destruct H as [H|[<-|[]]]; [now apply IR|]. split; [exact Px|]. split; [now apply G|exact MX].
      + apply (NoDup_Add (a := x) (l := resultStorage A st1)); [rewrite <- (app_nil_r (resultStorage A st1)) at 1; apply Add_app|]. split; auto.
        intros X. apply (NX x X). apply leq_refl.
      + exact IC.
      + eapply incl_tran; eauto.
      + intros y Hy. destruct (Dn y Hy) as [[<-|Hy']|Hc]; auto. right. now apply (covered_incl _ _ _ Inc').
      + exact Cx.
      + intros _. exists x. split; [apply in_or_app; right; now left|apply leq_refl].
    - injection E as <- <-. assert (NG : ~ good x) by (intros X; apply G in X; discriminate X).
      assert (Cx : covered (resultStorage A st) x) by (intros y Py Hy Gy; elim NG; now apply (antitone x y)).
      unfold Post, Inv. cbn [resultStorage cachedFalse doneStorage]. destruct I as (IR & IN & IC). split; [split; [split; [exact IR|split; [exact IN|]]|split]|split].
      + intros c [<-|H]; auto.
      + apply incl_refl.
      + intros y [<-|Hy]; auto.
      + exact Cx.
      + discriminate.
  Qed.

  Lemma frontier_spec fuel x res : P x -> getFrontierSetInLattice A eqA leq succs oracle known fuel x = Ret res ->
    NoDup res /\ (forall r, In r res -> P r /\ good r /\ maximal r) /\ covered res x.
  Proof.
    intros Px. unfold getFrontierSetInLattice. destruct (frontierRecurse _ _ _ _ _ _ _ _ _) as [[st b]| |] eqn:E; cbn [pybind]; intros X; try discriminate X. injection X as <-.
    destruct (recurse_spec fuel (mkFrontier A [] [] []) x st b) as ((I & _) & C & _); auto.
    { split; [intros r []|]. split; [constructor|intros c []]. }
    { intros y []. }
    split; [apply I|]. split; [apply I|exact C].
  Qed.

  (** ** The search ends *)
  Variable rank : A -> nat.
  Hypothesis rank_succ : forall x a, P x -> In a (succs x) -> rank a < rank x.
  Hypothesis oracle_total : forall x, P x -> exists b, oracle x = Ret b.
  Lemma loop_total rec l : (forall a st, In a l -> exists r, rec st a = Ret r) -> forall st, exists r, frontierLoop A rec st l = Ret r.
  Proof.
    induction l as [|a l IH]; intros H st; cbn [frontierLoop]; [eexists; reflexivity|].
    destruct (H a st (or_introl eq_refl)) as ([st1 b1] & E). rewrite E. cbn [pybind].
    destruct (IH (fun a' st' Ha => H a' st' (or_intror Ha)) st1) as ([st2 b2] & E2). rewrite E2. cbn [pybind]. eexists. reflexivity.
  Qed.
  Lemma recurse_total : forall fuel st x, P x -> rank x < fuel -> exists r, frontierRecurse A eqA leq succs oracle known fuel st x = Ret r.
  Proof.
    induction fuel as [|fuel IH]; intros st x Px H; [lia|]. cbn [frontierRecurse].
    destruct (existsb (eqA x) _); [eexists; reflexivity|]. destruct (existsb _ (cachedFalse A st)); [eexists; reflexivity|]. cbn [resultStorage cachedFalse doneStorage].
    match goal with |- context[if ?t then oracle x else Ret true] => assert (exists inside, (if t then oracle x else Ret true) = Ret inside) as (inside & E) end.
    { destruct (_ && _); [now apply oracle_total|eexists; reflexivity]. }
    rewrite E. cbn [pybind]. destruct inside; [|eexists; reflexivity].
    match goal with |- context[frontierLoop A ?r ?s ?l] => destruct (loop_total r l) with (st := s) as ([st1 b1] & E1) end.
    { intros a s Ha. apply IH; [now apply (succ_spec x)|]. pose proof (rank_succ x a Px Ha). lia. }
    rewrite E1. cbn [pybind]. destruct b1; [eexists; reflexivity|]. destruct (existsb (leq x) (resultStorage A st1)); eexists; reflexivity.
  Qed.
End FrontierProofs.
