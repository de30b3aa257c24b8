(** * Proofs about the CNF form *)

From Coq Require Import String ZArith Arith List Bool Lia.
From Verif Require Import BDD Loop Spec VarTypes Synth Sem FixBase AutSpec Explicit DetProofs CnfSpec Cnf.
Import ListNotations.

(** ** Enlarging a cube *)
Section GEN.
  Variables (n : nat) (ok : BF -> bool) (P : BF -> Prop) (pos neg : nat -> Z) (e0 : nat -> bool).
  Hypothesis Hok : forall f, ok f = true -> P f.

  Definition genStep (st : BF * list Z) (i : nat) : BF * list Z :=
    let '(cube, lits) := st in
    let candidate := bexists [i] cube in
    if ok candidate then (candidate, lits)
    else if isFalse (band cube (bvar i)) then (cube, lits ++ [neg i])
    else (cube, lits ++ [pos i]).

  Definition litOf (v : nat) : Z := if e0 v then pos v else neg v.
  Definition cubeIs (i : nat) (cube : BF) (K : list nat) : Prop :=
    forall e, eval cube e = true <-> (forall v, In v K -> e v = e0 v) /\ (forall v, i <= v < n -> e v = e0 v).

  Lemma genStep_spec m : forall i cube K, i + m = n ->
    cubeIs i cube K -> (forall v, In v K -> v < i) -> P cube ->
    exists cube' K', fold_left genStep (seq i m) (cube, map litOf K) = (cube', map litOf K') /\
      cubeIs n cube' K' /\ (forall v, In v K' -> v < n) /\ P cube'.
  Proof.
    induction m as [|m IH]; intros i cube K Hi HC HK HP; cbn [seq fold_left].
    - exists cube, K. rewrite Nat.add_0_r in Hi. subst i. auto.
    - unfold genStep at 2. destruct (ok (bexists [i] cube)) eqn:E.
      + apply (IH (S i)); [lia| | |auto].
        * intros e. rewrite eval_exists. split.
          -- intros (e' & Ha & He). apply HC in He. destruct He as [H1 H2]. split.
             ++ intros v Hv. rewrite <- (H1 v Hv). apply Ha. cbn. specialize (HK v Hv). lia.
             ++ intros v Hv. rewrite <- (H2 v) by lia. apply Ha. cbn. lia.
          -- intros [H1 H2]. exists (upd e i (e0 i)). split.
             ++ intros v Hv. symmetry. apply upd_other. cbn in Hv. lia.
             ++ apply HC. split; intros v Hv.
                ** rewrite upd_other; [auto|]. specialize (HK v Hv). lia.
                ** destruct (Nat.eq_dec v i) as [->|Hn]; [apply upd_same|]. rewrite upd_other by auto. apply H2. lia.
        * intros v Hv. specialize (HK v Hv). lia.
      + assert (map litOf K ++ [litOf i] = map litOf (K ++ [i])) as Em by (now rewrite map_app).
        assert ((if isFalse (band cube (bvar i)) then (cube, map litOf K ++ [neg i]) else (cube, map litOf K ++ [pos i])) = (cube, map litOf (K ++ [i]))) as Es.
        { rewrite <- Em. destruct (isFalse (band cube (bvar i))) eqn:F.
          - rewrite isFalse_spec in F. specialize (F e0). rewrite eval_and, eval_var in F.
            replace (eval cube e0) with true in F; [|symmetry; apply HC; auto]. cbn in F.
            replace (litOf i) with (neg i) by (unfold litOf; now rewrite F). reflexivity.
          - apply isFalse_false in F. destruct F as (e & F). rewrite eval_and, eval_var in F.
            apply andb_true_iff in F. destruct F as [F1 F2]. apply HC in F1. destruct F1 as [_ F1].
            rewrite (F1 i) in F2 by lia. replace (litOf i) with (pos i) by (unfold litOf; now rewrite F2). reflexivity. }
        rewrite Es. apply (IH (S i)); [lia| | |auto].
        * intros e. rewrite (HC e). split; intros [H1 H2]; split; intros v Hv.
          -- apply in_app_iff in Hv. destruct Hv as [Hv|[<-|[]]]; [auto|]. apply H2. lia.
          -- apply H2. lia.
          -- apply H1. apply in_app_iff. now left.
          -- destruct (Nat.eq_dec v i) as [->|Hn]; [apply H1, in_app_iff; right; now left|]. apply H2. lia.
        * intros v Hv. apply in_app_iff in Hv. destruct Hv as [Hv|[<-|[]]]; [specialize (HK v Hv)|]; lia.
  Qed.
End GEN.

(** ** Collecting cubes *)
Section COVER.
  Variables (n : nat) (g : BF) (body : BF * list (list Z) -> step (BF * list (list Z)) (BF * list (list Z)))
    (L : BF -> list Z -> Prop).
  Hypothesis Hg : dep (fun v => v < n) g.
  Hypothesis HL : forall cube line, L cube line -> dep (fun v => v < n) cube.
  Hypothesis Hdone : forall out, body (g, out) = Done (g, out).
  Hypothesis Hcont : forall found out, dep (fun v => v < n) found ->
    (forall e, eval found e = true -> eval g e = true) -> found <> g ->
    exists cube line, body (found, out) = Cont (bor found cube, out ++ [line]) /\ L cube line /\
      (forall e, eval cube e = true -> eval g e = true) /\
      (exists e, eval cube e = true /\ eval found e = false).

  Definition total (f : BF) : nat := length (filter (fun l => eval f (ofVec l)) (vectors n)).

  Lemma eval_toVec f e : dep (fun v => v < n) f -> eval f (ofVec (toVec n e)) = eval f e.
  Proof. intros H. apply H. intros v Hv. now apply ofVec_toVec. Qed.

  Lemma cover_spec m : S n <= m ->
    exists out cubes, run body m (bfalse, []) = Some (g, out) /\ Forall2 L cubes out /\
      forall e, eval g e = existsb (fun f => eval f e) cubes.
  Proof.
    intros Hm.
    set (Inv := fun st : BF * list (list Z) => dep (fun v => v < n) (fst st) /\
      exists cubes, Forall2 L cubes (snd st) /\ (forall f, In f cubes -> forall e, eval f e = true -> eval g e = true) /\
        forall e, eval (fst st) e = existsb (fun f => eval f e) cubes).
    assert (forall st, Inv st -> forall e, eval (fst st) e = true -> eval g e = true) as Hsub.
    { intros st (_ & cubes & _ & H1 & H2) e. rewrite H2, existsb_exists. intros (f & Hf & He). eauto. }
    assert (forall st st', Inv st -> body st = Cont st' -> Inv st' /\ total (bnot (fst st')) < total (bnot (fst st))) as Hs.
    { intros [found out] st' HI E. destruct (bf_eqb_spec found g) as [->|Hne].
      - rewrite Hdone in E. discriminate.
      - destruct HI as (Hd & cubes & F2 & H1 & H2). cbn [fst snd] in *.
        destruct (Hcont found out Hd (Hsub (found, out) (conj Hd (ex_intro _ cubes (conj F2 (conj H1 H2))))) Hne)
          as (cube & line & E' & HLc & Hc & (e & He1 & He2)).
        rewrite E' in E. injection E as <-. cbn [fst snd]. split.
        + split; [apply dep_or; [exact Hd|now apply (HL cube line)]|].
          exists (cubes ++ [cube]). cbn [fst snd]. split; [apply Forall2_app; auto|]. split.
          * intros f Hf. apply in_app_iff in Hf. destruct Hf as [Hf|[<-|[]]]; [now apply H1|exact Hc].
          * intros x. rewrite eval_or, H2, existsb_app. cbn. now rewrite orb_false_r.
        + apply filter_length_lt.
          * intros l _. rewrite !eval_not, eval_or. destruct (eval found (ofVec l)); cbn; auto.
          * exists (toVec n e). split; [apply toVec_in|]. rewrite !eval_not, eval_or.
            rewrite (eval_toVec found) by exact Hd; rewrite (eval_toVec cube) by (now apply (HL cube line)). rewrite He1, He2. auto. }
    assert (Inv (bfalse, [])) as H0.
    { split; [apply dep_false|]. exists []. split; [constructor|]. split; [intros f []|]. reflexivity. }
    destruct (run_total body Inv (fun st => total (bnot (fst st))) m (bfalse, []) H0) as (r & Er & Hr).
    - intros st HI. destruct (body st) as [st'|r|] eqn:E; [now apply Hs|auto|].
      destruct st as [found out]. destruct (bf_eqb_spec found g) as [->|Hne].
      + rewrite Hdone in E. discriminate.
      + destruct (Hcont found out (proj1 HI) (Hsub _ HI) Hne) as (cube & line & E' & _). congruence.
    - cbn [fst]. apply Nat.le_lt_trans with (2 ^ n).
      + unfold total. rewrite <- vectors_length. apply filter_length_all.
      + apply Nat.pow_lt_mono_r; lia.
    - destruct (Runs_last body Inv _ _ Hr H0) as ([found out] & HI & E).
      + intros s s' HI E. now apply (Hs s s').
      + destruct (bf_eqb_spec found g) as [->|Hne].
        * rewrite Hdone in E. injection E as <-. destruct HI as (_ & cubes & F2 & _ & H2). exists out, cubes. auto.
        * destruct (Hcont found out (proj1 HI) (Hsub _ HI) Hne) as (cube & line & E' & _). congruence.
  Qed.
End COVER.

(** ** Clauses and cubes *)
Section CTX.
  Variable c : ctx.
  Local Notation n := (length (varTypes c)).
  Local Notation any := (dep (fun v => v < n)).

  (** The valuation of numbers that belongs to a valuation of BDD variables. *)
  Definition valOf (e : nat -> bool) (z : Z) : bool := e (Z.to_nat (z - 1)).

  (** The first cube of a round. *)
  Lemma first_cube f e1 : any f -> eval f e1 = true ->
    exists e0, eval f e0 = true /\ cubeIs n e0 0 (determinize f (allVars c)) [].
  Proof.
    intros Hd H1. destruct (determinize_spec (allVars c) f) as (e0 & H0 & H).
    - apply isFalse_false. eauto.
    - exists e0. split; [exact H0|]. intros e. rewrite H, andb_true_iff, agreeOn_iff. unfold allVars. split.
      + intros [_ Ha]. split; [intros v []|]. intros v Hv. apply Ha, in_seq. lia.
      + intros [_ Ha]. split.
        * rewrite <- H0. apply Hd. intros v Hv. apply Ha. lia.
        * intros v Hv. apply in_seq in Hv. apply Ha. lia.
  Qed.

  Lemma cubeIs_any e0 cube K : cubeIs n e0 n cube K -> (forall v, In v K -> v < n) -> any cube.
  Proof.
    intros HC HK e e' Ha. apply eq_true_iff_eq. rewrite (HC e), (HC e').
    split; intros [H1 _]; (split; [|lia]); intros v Hv; rewrite <- (H1 v Hv); [symmetry|]; apply Ha; auto.
  Qed.

  Definition cubeLit (positive : bool) (e0 : nat -> bool) : nat -> Z :=
    litOf (fun i => if positive then (Z.of_nat i + 1)%Z else (- Z.of_nat i - 1)%Z)
          (fun i => if positive then (- Z.of_nat i - 1)%Z else (Z.of_nat i + 1)%Z) e0.

  Lemma litSat_pos e i : litSat (valOf e) (Z.of_nat i + 1) = e i.
  Proof.
    unfold litSat, valOf. replace (0 <? Z.of_nat i + 1)%Z with true by (symmetry; apply Z.ltb_lt; lia).
    f_equal. lia.
  Qed.
  Lemma litSat_neg e i : litSat (valOf e) (- Z.of_nat i - 1) = negb (e i).
  Proof.
    unfold litSat, valOf. replace (0 <? - Z.of_nat i - 1)%Z with false by (symmetry; apply Z.ltb_ge; lia).
    do 2 f_equal. lia.
  Qed.
  Lemma cubeLit_sat positive e0 e v : litSat (valOf e) (cubeLit positive e0 v) = Bool.eqb positive (Bool.eqb (e v) (e0 v)).
  Proof.
    unfold cubeLit, litOf. destruct positive, (e0 v) eqn:E; rewrite ?litSat_pos, ?litSat_neg; now destruct (e v).
  Qed.

  (** A line of literals that describes a cube, as a cube or as the negated clause. *)
  Definition lineOf (positive : bool) (cube : BF) (line : list Z) : Prop :=
    exists e0 K, line = map (cubeLit positive e0) K /\ (forall v, In v K -> v < n) /\ cubeIs n e0 n cube K.

  Lemma lineOf_any positive cube line : lineOf positive cube line -> any cube.
  Proof. intros (e0 & K & _ & HK & HC). eapply cubeIs_any; eauto. Qed.
  Lemma lineOf_cube cube line e : lineOf true cube line -> eval cube e = cubeSat (valOf e) line.
  Proof.
    intros (e0 & K & -> & HK & HC). apply eq_true_iff_eq. rewrite (HC e). unfold cubeSat. rewrite forallb_forall. split.
    - intros [H _] l Hl. apply in_map_iff in Hl. destruct Hl as (v & <- & Hv). rewrite cubeLit_sat, (H v Hv).
      now destruct (e0 v).
    - intros H. split; [|lia]. intros v Hv. specialize (H _ (in_map _ _ _ Hv)). rewrite cubeLit_sat in H.
      apply eqb_prop in H. symmetry in H. now apply eqb_prop in H.
  Qed.
  Lemma lineOf_clause cube line e : lineOf false cube line -> eval cube e = negb (clauseSat (valOf e) line).
  Proof.
    intros (e0 & K & -> & HK & HC). apply eq_true_iff_eq. rewrite (HC e), negb_true_iff. split.
    - intros [H _]. apply not_true_iff_false. unfold clauseSat. rewrite existsb_exists. intros (l & Hl & Hs).
      apply in_map_iff in Hl. destruct Hl as (v & <- & Hv). rewrite cubeLit_sat, (H v Hv) in Hs. now destruct (e0 v).
    - intros H. split; [|lia]. intros v Hv. apply not_true_iff_false in H. unfold clauseSat in H.
      rewrite existsb_exists in H. destruct (bool_dec (e v) (e0 v)) as [E|E]; [exact E|]. exfalso. apply H.
      exists (cubeLit false e0 v). split; [now apply in_map|]. rewrite cubeLit_sat. now destruct (e v), (e0 v).
  Qed.
  Lemma lineOf_range positive cube line : lineOf positive cube line ->
    forall l, In l line -> (1 <= Z.abs l <= Z.of_nat n)%Z.
  Proof.
    intros (e0 & K & -> & HK & _) l Hl. apply in_map_iff in Hl. destruct Hl as (v & <- & Hv). specialize (HK v Hv).
    unfold cubeLit, litOf. destruct positive, (e0 v); lia.
  Qed.

  (** Clauses. *)
  Lemma clauses_spec rest : any rest ->
    exists out, clauses c rest = COk out /\
      (forall e, eval rest e = cnfSat (valOf e) out) /\
      (forall cl l, In cl out -> In l cl -> (1 <= Z.abs l <= Z.of_nat n)%Z).
  Proof.
    intros Hr. unfold clauses.
    destruct (cover_spec n (bnot rest) (clauseBody c rest) (lineOf false)) with (m := fpFuel c) as (out & cubes & Er & F2 & He).
    - apply lineOf_any.
    - intros out. unfold clauseBody. replace (bf_eqb (bor rest (bnot rest)) btrue) with true; [reflexivity|].
      symmetry. apply bf_eqb_eq, bf_ext. intros e. rewrite eval_or, eval_not. now destruct (eval rest e).
    - intros found out Hd Hs Hne. unfold clauseBody.
      destruct (bf_eqb_spec (bor rest found) btrue) as [E|E].
      { exfalso. apply Hne, bf_ext. intros e. assert (eval (bor rest found) e = true) as X by (rewrite E; reflexivity).
        rewrite eval_or in X. rewrite eval_not. specialize (Hs e). rewrite eval_not in Hs.
        destruct (eval rest e), (eval found e); auto; discriminate (Hs eq_refl). }
      set (f := band (bnot rest) (bnot found)).
      assert (any f) as Hf by (apply dep_and; now apply dep_not).
      assert (exists e1, eval f e1 = true) as (e1 & He1).
      { destruct (isTrue (bor rest found)) eqn:T.
        - exfalso. apply E. apply bf_ext. intros e. rewrite isTrue_spec in T. now rewrite T.
        - apply isTrue_false in T. destruct T as (e & T). exists e. unfold f. rewrite eval_and, !eval_not.
          rewrite eval_or in T. apply orb_false_iff in T. destruct T as [-> ->]. reflexivity. }
      destruct (first_cube f e1 Hf He1) as (e0 & H0 & HC0).
      destruct (genStep_spec n (fun cand => isFalse (band (band cand rest) (bnot found)))
                  (fun cube => forall e, eval cube e = true -> eval (bnot rest) e = true)
                  (fun i => (- Z.of_nat i - 1)%Z) (fun i => (Z.of_nat i + 1)%Z) e0) with (m := n) (i := 0)
                  (cube := determinize f (allVars c)) (K := @nil nat) as (cube & K & EF & HC & HK & HP).
      + intros g Hg e Hge. rewrite isFalse_spec in Hg. specialize (Hg e). specialize (Hs e).
        rewrite !eval_and, Hge, eval_not in Hg. rewrite eval_not in *.
        destruct (eval rest e), (eval found e); auto; discriminate.
      + reflexivity.
      + exact HC0.
      + intros v [].
      + intros e Hc. apply HC0 in Hc. destruct Hc as [_ Hc].
        assert (eval f e = true) as X by (rewrite <- H0; apply Hf; intros v Hv; apply Hc; lia).
        unfold f in X. rewrite eval_and in X. now apply andb_true_iff in X.
      + exists cube, (map (cubeLit false e0) K).
        change (clauseStep rest found) with (genStep (fun cand => isFalse (band (band cand rest) (bnot found)))
                  (fun i => (- Z.of_nat i - 1)%Z) (fun i => (Z.of_nat i + 1)%Z)).
        cbn [map] in EF. unfold allVars at 1. rewrite EF. split; [reflexivity|].
        split; [exists e0, K; auto|]. split; [exact HP|].
        exists e0. split; [apply HC; split; auto|]. unfold f in H0. rewrite eval_and, !eval_not in H0.
        apply andb_true_iff in H0. destruct H0 as [_ H0]. now apply negb_true_iff.
    - unfold fpFuel. lia.
    - rewrite Er, bf_eqb_refl. exists out. split; [reflexivity|]. split.
      + intros e. specialize (He e). rewrite eval_not in He.
        assert (existsb (fun f => eval f e) cubes = negb (cnfSat (valOf e) out)) as X.
        { clear - F2. induction F2 as [|f cl fs cls H F2 IH]; cbn; [reflexivity|].
          rewrite (lineOf_clause _ _ _ H), IH. now rewrite negb_andb. }
        rewrite X in He. destruct (eval rest e), (cnfSat (valOf e) out); auto.
      + intros cl l Hcl Hl. clear - F2 Hcl Hl. induction F2 as [|f cl' fs cls H F2 IH]; [destruct Hcl|].
        destruct Hcl as [->|Hcl]; [|auto]. eapply lineOf_range; eauto.
  Qed.

  (** Cubes of a liveness condition. *)
  Definition postLit (l : Z) : bool := isPostType (typeOf c (Z.to_nat (Z.abs l - 1))).
  Definition shift (line : list Z) : list Z :=
    map (fun l => if forallb postLit line then (l - normsign l)%Z else l) line.

  Lemma cubeStep_gen it vs : forall cube lits,
    fold_left (cubeStep c it) vs (cube, (lits, forallb postLit lits)) =
    let '(cube', lits') := fold_left (genStep (fun cand => isFalse (band cand (bnot it)))
        (fun i => (Z.of_nat i + 1)%Z) (fun i => (- Z.of_nat i - 1)%Z)) vs (cube, lits) in
    (cube', (lits', forallb postLit lits')).
  Proof.
    induction vs as [|i vs IH]; intros cube lits; cbn [fold_left]; [reflexivity|].
    unfold cubeStep at 2, genStep at 2. destruct (isFalse (band (bexists [i] cube) (bnot it))); [apply IH|].
    assert (postLit (Z.of_nat i + 1) = isPostType (typeOf c i)) as E1.
    { unfold postLit. do 2 f_equal. lia. }
    assert (postLit (- Z.of_nat i - 1) = isPostType (typeOf c i)) as E2.
    { unfold postLit. do 2 f_equal. lia. }
    destruct (isFalse (band cube (bvar i))).
    - rewrite <- E2. replace (forallb postLit lits && postLit (- Z.of_nat i - 1)) with (forallb postLit (lits ++ [(- Z.of_nat i - 1)%Z]))
        by (rewrite forallb_app; cbn; now rewrite andb_true_r). apply IH.
    - rewrite <- E1. replace (forallb postLit lits && postLit (Z.of_nat i + 1)) with (forallb postLit (lits ++ [(Z.of_nat i + 1)%Z]))
        by (rewrite forallb_app; cbn; now rewrite andb_true_r). apply IH.
  Qed.

  Lemma cubes_spec it : any it ->
    exists lines, cubes c it = COk (map shift lines) /\
      (forall e, eval it e = dnfSat (valOf e) lines) /\
      (forall cl l, In cl lines -> In l cl -> (1 <= Z.abs l <= Z.of_nat n)%Z).
  Proof.
    intros Hi. unfold cubes.
    destruct (cover_spec n it (cubeBody c it) (fun cube line => exists line', line = shift line' /\ lineOf true cube line'))
      with (m := fpFuel c) as (out & cubes & Er & F2 & He).
    - intros cube line (line' & _ & H). eapply lineOf_any; eauto.
    - intros out. unfold cubeBody. replace (bf_eqb (band it (bnot it)) bfalse) with true; [reflexivity|].
      symmetry. apply bf_eqb_eq, bf_ext. intros e. rewrite eval_and, eval_not. now destruct (eval it e).
    - intros found out Hd Hs Hne. unfold cubeBody.
      destruct (bf_eqb_spec (band it (bnot found)) bfalse) as [E|E].
      { exfalso. apply Hne, bf_ext. intros e. assert (eval (band it (bnot found)) e = false) as X by (rewrite E; reflexivity).
        rewrite eval_and, eval_not in X. specialize (Hs e).
        destruct (eval it e), (eval found e); auto; discriminate (Hs eq_refl). }
      set (f := band it (bnot found)) in *.
      assert (any f) as Hf by (apply dep_and; [exact Hi|now apply dep_not]).
      assert (exists e1, eval f e1 = true) as (e1 & He1).
      { apply isFalse_false. apply not_true_iff_false. intros T. apply E. now apply isFalse_iff. }
      destruct (first_cube f e1 Hf He1) as (e0 & H0 & HC0).
      destruct (genStep_spec n (fun cand => isFalse (band cand (bnot it)))
                  (fun cube => forall e, eval cube e = true -> eval it e = true)
                  (fun i => (Z.of_nat i + 1)%Z) (fun i => (- Z.of_nat i - 1)%Z) e0) with (m := n) (i := 0)
                  (cube := determinize f (allVars c)) (K := @nil nat) as (cube & K & EF & HC & HK & HP).
      + intros g Hg e Hge. rewrite isFalse_spec in Hg. specialize (Hg e).
        rewrite eval_and, Hge, eval_not in Hg. now destruct (eval it e).
      + reflexivity.
      + exact HC0.
      + intros v [].
      + intros e Hc. apply HC0 in Hc. destruct Hc as [_ Hc].
        assert (eval f e = true) as X by (rewrite <- H0; apply Hf; intros v Hv; apply Hc; lia).
        unfold f in X. rewrite eval_and in X. now apply andb_true_iff in X.
      + exists cube, (shift (map (cubeLit true e0) K)).
        pose proof (cubeStep_gen it (allVars c) (determinize f (allVars c)) []) as G. cbn [forallb] in G.
        cbn [map] in EF. fold (allVars c) in EF. rewrite EF in G.
        rewrite G. split; [reflexivity|].
        split; [exists (map (cubeLit true e0) K); split; [reflexivity|]; exists e0, K; auto|]. split; [exact HP|].
        exists e0. split; [apply HC; split; auto|]. unfold f in H0. rewrite eval_and, !eval_not in H0.
        apply andb_true_iff in H0. destruct H0 as [_ H0]. now apply negb_true_iff.
    - unfold fpFuel. lia.
    - rewrite Er, bf_eqb_refl.
      assert (exists lines, out = map shift lines /\ Forall2 (lineOf true) cubes lines) as (lines & -> & G2).
      { clear - F2. induction F2 as [|f cl fs cls (line & -> & H) F2 (lines & -> & IH)].
        - exists []. split; constructor.
        - exists (line :: lines). split; [reflexivity|]. constructor; auto. }
      exists lines. split; [reflexivity|]. split.
      + intros e. rewrite He. clear - G2. induction G2 as [|f cl fs cls H F2 IH]; cbn; [reflexivity|].
        now rewrite (lineOf_cube _ _ _ H), IH.
      + intros cl l Hcl Hl. clear - G2 Hcl Hl. induction G2 as [|f cl' fs cls H F2 IH]; [destruct Hcl|].
        destruct Hcl as [->|Hcl]; [|auto]. eapply lineOf_range; eauto.
  Qed.
End CTX.
