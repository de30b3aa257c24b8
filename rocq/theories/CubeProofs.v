(** * Proofs about the printed cubes *)

From Coq Require Import String ZArith NArith Arith List Bool Lia.
From Verif Require Import BDD Loop Spec VarTypes Synth Sem FixBase AnalyzeSpec Analyze AnalyzeProofs.
Import ListNotations.
Local Open Scope list_scope.

(** ** The set of minterms *)

Definition free (ps : list (nat * nat)) (e : nat -> bool) (v : nat) : Prop := exists s, In (v, s) ps /\ e s = true.

Lemma minterm_fold f ps0 : forall done R,
  (forall p s, In (p, s) (done ++ ps0) -> forall p', In p' (map fst (done ++ ps0)) -> s <> p') ->
  (forall e, eval R e = true <-> forall e', (forall v, ~ free done e v -> e' v = e v) -> eval f e' = true) ->
  forall e, eval (fold_left mintermStep ps0 R) e = true <->
    forall e', (forall v, ~ free (done ++ ps0) e v -> e' v = e v) -> eval f e' = true.
Proof.
  induction ps0 as [|[p s] ps0 IH]; intros done R Hd HR.
  - cbn [fold_left]. intros e. rewrite app_nil_r. apply HR.
  - cbn [fold_left]. replace (done ++ (p, s) :: ps0) with ((done ++ [(p, s)]) ++ ps0) in * by (rewrite <- app_assoc; reflexivity).
    apply IH; [exact Hd|].
    assert (Hps : forall x y, In (x, y) (done ++ [(p, s)]) -> y <> p).
    { intros x y Hxy. apply (Hd x y); [apply in_app_iff; now left|]. rewrite !map_app, !in_app_iff. left. right. now left. }
    assert (Hfree : forall e b v, free done (upd e p b) v <-> free done e v).
    { intros e b v. split; intros (y & H1 & H2); exists y; (split; [exact H1|]);
        assert (y <> p) by (apply (Hps v y); apply in_app_iff; now left).
      - now rewrite upd_other in H2.
      - now rewrite upd_other. }
    assert (free_dec : forall e v, free done e v \/ ~ free done e v).
    { intros e v. destruct (existsb (fun q => Nat.eqb (fst q) v && e (snd q)) done) eqn:X.
      - left. apply existsb_exists in X. destruct X as ([a b] & H1 & H2). cbn in H2. apply andb_true_iff in H2.
        destruct H2 as [H2 H3]. apply Nat.eqb_eq in H2. subst. exists b. auto.
      - right. intros (y & H1 & H2). apply not_true_iff_false in X. apply X. apply existsb_exists. exists (v, y).
        split; [exact H1|]. cbn. now rewrite Nat.eqb_refl, H2. }
    intros e. unfold mintermStep. rewrite eval_or, !eval_and, eval_not, eval_not, eval_var.
    destruct (e s) eqn:Es; cbn [negb].
    + rewrite andb_false_r, orb_false_r, andb_true_r, negb_true_iff. split.
      * intros Hx e' He'.
        assert (eval R (upd e p (e' p)) = true) as HRb.
        { destruct (eval R (upd e p (e' p))) eqn:Q; [reflexivity|]. exfalso.
          assert (eval (bexists [p] (bnot R)) e = true); [|congruence]. apply eval_exists. exists (upd e p (e' p)). split.
          - intros v Hv. symmetry. apply upd_other. cbn in Hv. intuition.
          - now rewrite eval_not, Q. }
        rewrite HR in HRb. apply HRb. intros v Hv. rewrite Hfree in Hv.
        destruct (Nat.eq_dec v p) as [->|Hne]; [now rewrite upd_same|]. rewrite upd_other by exact Hne. apply He'.
        intros (y & H1 & H2). apply in_app_iff in H1. destruct H1 as [H1|[H1|[]]]; [apply Hv; exists y; auto|].
        injection H1 as -> ->. congruence.
      * intros H. apply not_true_iff_false. intros Hx. apply eval_exists in Hx. destruct Hx as (e1 & Ha & He1).
        rewrite eval_not in He1. apply negb_true_iff in He1.
        assert (eval R e1 = true); [|congruence]. apply HR. intros e' He'. apply H. intros v Hv.
        assert (v <> p) as Hne. { intros ->. apply Hv. exists s. split; [apply in_app_iff; right; now left|exact Es]. }
        rewrite He'; [symmetry; apply Ha; cbn; intuition|].
        intros (y & H1 & H2). apply Hv. exists y. split; [apply in_app_iff; now left|].
        rewrite <- H2. apply Ha. cbn. assert (y <> p) by (apply (Hps v y); apply in_app_iff; now left). intuition.
    + rewrite andb_false_r, andb_true_r, orb_false_l, HR. split; intros H e' He'; apply H; intros v Hv; apply He'.
      * intros (y & H1 & H2). apply in_app_iff in H1. destruct H1 as [H1|[H1|[]]]; [apply Hv; exists y; auto|].
        injection H1 as -> ->. congruence.
      * intros (y & H1 & H2). apply Hv. exists y. split; [apply in_app_iff; now left|exact H2].
Qed.

(** ** Paths *)

Lemma onPath_in p v b : onPath p v b = true <-> In (v, b) p.
Proof.
  unfold onPath. rewrite existsb_exists. split.
  - intros ([x b'] & H & E). apply andb_true_iff in E. destruct E as [E1 E2]. apply Nat.eqb_eq in E1. apply eqb_prop in E2. now subst.
  - intros H. exists (v, b). split; [exact H|]. now rewrite Nat.eqb_refl, eqb_reflx.
Qed.
Lemma path_eval t : forall p e, isPath t p = true -> (forall v b, In (v, b) p -> e v = b) -> teval t e = true.
Proof.
  induction t as [b|v l IHl h IHh]; intros p e Hp He.
  - destruct p; [exact Hp|discriminate].
  - destruct p as [|[x b] p]; [discriminate|]. cbn [isPath] in Hp. apply andb_true_iff in Hp. destruct Hp as [E Hp].
    apply Nat.eqb_eq in E. subst x. cbn [teval]. rewrite (He v b) by now left.
    destruct b; [apply (IHh p)|apply (IHl p)]; auto; intros; apply He; now right.
Qed.
Lemma path_ge t : forall n p v b, robdd n t = true -> isPath t p = true -> In (v, b) p -> n <= v.
Proof.
  induction t as [a|x l IHl h IHh]; intros n p v b Hr Hp Hv.
  - destruct p; [destruct Hv|discriminate].
  - destruct p as [|[y b'] p]; [destruct Hv|]. cbn [isPath] in Hp. apply andb_true_iff in Hp. destruct Hp as [E Hp].
    apply Nat.eqb_eq in E. subst y. cbn [robdd] in Hr. rewrite !andb_true_iff, Nat.leb_le in Hr.
    destruct Hr as (((R1 & R2) & R3) & _). destruct Hv as [Hv|Hv]; [injection Hv as <- _; exact R1|].
    assert (S x <= v); [|lia]. destruct b'; [apply (IHh _ _ _ _ R3 Hp Hv)|apply (IHl _ _ _ _ R2 Hp Hv)].
Qed.
Lemma path_det t : forall n p v, robdd n t = true -> isPath t p = true -> In (v, true) p -> In (v, false) p -> False.
Proof.
  induction t as [a|x l IHl h IHh]; intros n p v Hr Hp H1 H2.
  - destruct p; [destruct H1|discriminate].
  - destruct p as [|[y b'] p]; [destruct H1|]. cbn [isPath] in Hp. apply andb_true_iff in Hp. destruct Hp as [E Hp].
    apply Nat.eqb_eq in E. subst y. cbn [robdd] in Hr. rewrite !andb_true_iff, Nat.leb_le in Hr.
    destruct Hr as (((R1 & R2) & R3) & _).
    assert (robdd (S x) (if b' then h else l) = true) as R by (destruct b'; assumption).
    destruct H1 as [H1|H1], H2 as [H2|H2].
    + congruence.
    + injection H1 as <- ->. apply (path_ge _ _ _ _ _ R Hp) in H2. lia.
    + injection H2 as <- ->. apply (path_ge _ _ _ _ _ R Hp) in H1. lia.
    + destruct b'; [apply (IHh _ _ _ R Hp H1 H2)|apply (IHl _ _ _ R Hp H1 H2)].
Qed.

Lemma cheapest_path isSec t : forall n, robdd n t = true -> t <> Leaf false ->
  exists k p, cheapest isSec t = Some (k, p) /\ isPath t p = true.
Proof.
  induction t as [b|v l IHl h IHh]; intros n Hr Hn.
  - destruct b; [|congruence]. exists 0, []. auto.
  - cbn [robdd] in Hr. rewrite !andb_true_iff, Nat.leb_le in Hr. destruct Hr as (((R1 & R2) & R3) & R4).
    cbn [cheapest].
    destruct (tree_eqb l (Leaf false)) eqn:El.
    + apply tree_eqb_eq in El. subst l. cbn [cheapest].
      assert (h <> Leaf false) as Nh. { intros ->. discriminate. }
      destruct (IHh _ R3 Nh) as (k & p & E & P). rewrite E. eexists _, _. split; [reflexivity|]. cbn. now rewrite Nat.eqb_refl.
    + apply tree_eqb_neq in El. destruct (IHl _ R2 El) as (k & p & E & P). rewrite E.
      destruct (tree_eqb h (Leaf false)) eqn:Eh.
      * apply tree_eqb_eq in Eh. subst h. cbn [cheapest]. eexists _, _. split; [reflexivity|]. cbn. now rewrite Nat.eqb_refl.
      * apply tree_eqb_neq in Eh. destruct (IHh _ R3 Eh) as (k' & p' & E' & P'). rewrite E'.
        destruct (Nat.ltb _ _); (eexists _, _; split; [reflexivity|]; cbn; now rewrite Nat.eqb_refl).
Qed.

(** ** The enumeration *)
Section CUBES.
  Variable c : ctx.
  Hypothesis Hwf : wf c.
  Let Hk := wf_kinds c Hwf.
  Local Notation prec := (dep (isPreV c)).
  Local Notation n := (nvars c).

  Definition pairs : list (nat * nat) := map (fun k => (2 * k, 2 * k + 1)) (seq 0 n).

  Lemma filter_evens (p : nat -> bool) m : (forall k, k < m -> p (2 * k) = true /\ p (2 * k + 1) = false) ->
    filter p (seq 0 (2 * m)) = map (fun k => 2 * k) (seq 0 m).
  Proof.
    induction m as [|m IH]; intros H; [reflexivity|].
    replace (2 * S m) with (2 * m + 2) by lia. rewrite seq_app, filter_app, IH by (intros; apply H; lia).
    rewrite (seq_S m 0), map_app. f_equal. cbn [Nat.add seq filter map]. replace (S (2 * m)) with (2 * m + 1) by lia.
    destruct (H m) as [-> ->]; [lia|]. reflexivity.
  Qed.
  Lemma filter_odds (p : nat -> bool) m : (forall k, k < m -> p (2 * k) = false /\ p (2 * k + 1) = true) ->
    filter p (seq 0 (2 * m)) = map (fun k => 2 * k + 1) (seq 0 m).
  Proof.
    induction m as [|m IH]; intros H; [reflexivity|].
    replace (2 * S m) with (2 * m + 2) by lia. rewrite seq_app, filter_app, IH by (intros; apply H; lia).
    rewrite (seq_S m 0), map_app. f_equal. cbn [Nat.add seq filter map]. replace (S (2 * m)) with (2 * m + 1) by lia.
    destruct (H m) as [-> ->]; [lia|]. reflexivity.
  Qed.
  Lemma preVars_list : preVars c = map (fun k => 2 * k) (seq 0 n).
  Proof.
    unfold preVars, varsOf. cbn [flat_map]. rewrite app_nil_r, (nvars_spec c Hk). apply filter_evens.
    intros k Hlt. rewrite (type_odd c Hk). pose proof (type_even c Hk k Hlt) as T. apply inherits_post in T. intuition.
  Qed.
  Lemma postVars_list : postVars c = map (fun k => 2 * k + 1) (seq 0 n).
  Proof.
    unfold postVars, varsOf. cbn [flat_map]. rewrite app_nil_r, (nvars_spec c Hk). apply filter_odds.
    intros k Hlt. rewrite (type_odd c Hk). pose proof (type_even c Hk k Hlt) as T. apply inherits_post in T. intuition.
  Qed.
  Lemma combine_pairs : combine (preVars c) (postVars c) = pairs.
  Proof.
    rewrite preVars_list, postVars_list. unfold pairs. generalize (seq 0 n). induction l as [|k l IH]; cbn [map combine]; [reflexivity|].
    now rewrite IH.
  Qed.
  Lemma in_pairs p s : In (p, s) pairs <-> exists k, k < n /\ p = 2 * k /\ s = 2 * k + 1.
  Proof.
    unfold pairs. rewrite in_map_iff. split.
    - intros (k & E & H). injection E as <- <-. apply in_seq in H. exists k. split; [lia|auto].
    - intros (k & H & -> & ->). exists k. split; [reflexivity|]. apply in_seq. lia.
  Qed.

  Variables (f care : BF).
  Hypothesis Hf : prec f.
  Hypothesis Hcare : prec care.
  Definition R0 : BF := fold_left mintermStep pairs f.

  Lemma R0_spec e : eval R0 e = true <->
    forall e', (forall v, ~ free pairs e v -> e' v = e v) -> eval f e' = true.
  Proof.
    unfold R0. apply (minterm_fold f pairs [] f).
    - cbn [app]. intros p s H p' H'. apply in_pairs in H. destruct H as (k & _ & -> & ->).
      apply in_map_iff in H'. destruct H' as ([a b] & <- & H'). apply in_pairs in H'. destruct H' as (m & _ & -> & ->). cbn. lia.
    - clear e. intros e. split.
      + intros H e' He'. rewrite <- H. apply Hf. intros v _. apply He'. intros (s & [] & _).
      + intros H. apply H. auto.
  Qed.

  (** Valuation that belongs to a path: variables that are not on the path are arbitrary
      values (secondary variables) or false (primary variables). *)
  Definition pathEnv (p : list (nat * bool)) (v : nat) : bool :=
    if onPath p v true then true else if onPath p v false then false else negb (Nat.even v).
  Lemma pathEnv_eval R p : isPath (bft R) p = true -> eval R (pathEnv p) = true.
  Proof.
    intros Hp. apply (path_eval _ p); [exact Hp|]. intros v b Hv. unfold pathEnv. destruct b.
    - apply onPath_in in Hv. now rewrite Hv.
    - destruct (onPath p v true) eqn:E.
      + apply onPath_in in E. exfalso. exact (path_det _ _ _ _ (bft_ok R) Hp E Hv).
      + apply onPath_in in Hv. now rewrite Hv.
  Qed.

  Definition cubeOf (p : list (nat * bool)) : list Z := map (literal p) pairs.
  Lemma cubeOf_nth p k : nth k (cubeOf p) 0%Z = if Nat.ltb k n then literal p (2 * k, 2 * k + 1) else 0%Z.
  Proof.
    unfold cubeOf, pairs. rewrite map_map. destruct (Nat.ltb_spec k n) as [H|H].
    - set (F := fun x => literal p (2 * x, 2 * x + 1)).
      rewrite (nth_indep _ 0%Z (F 0)) by (now rewrite map_length, seq_length). rewrite map_nth, seq_nth by exact H. reflexivity.
    - apply nth_overflow. now rewrite map_length, seq_length.
  Qed.

  (** The cube of a path through a subset of the minterms. *)
  Lemma cube_sound R p : (forall e, eval R e = true -> eval R0 e = true /\ eval care e = true) ->
    isPath (bft R) p = true ->
    (forall s, matches (cubeOf p) s -> pos f s = true) /\
    (exists s, pos care s = true /\ matches (cubeOf p) s).
  Proof.
    intros HR Hp. pose proof (pathEnv_eval R p Hp) as He. destruct (HR _ He) as [H0 Hc].
    assert (Hodd : forall k, pathEnv p (2 * k + 1) = negb (onPath p (2 * k + 1) false) ).
    { intros k. unfold pathEnv. rewrite even_double1. destruct (onPath p (2 * k + 1) true) eqn:E1, (onPath p (2 * k + 1) false) eqn:E2; auto.
      apply onPath_in in E1, E2. exfalso. exact (path_det _ _ _ _ (bft_ok R) Hp E1 E2). }
    assert (Heven : forall k, pathEnv p (2 * k) = onPath p (2 * k) true).
    { intros k. unfold pathEnv. rewrite even_double. destruct (onPath p (2 * k) true), (onPath p (2 * k) false); reflexivity. }
    split.
    - intros s Hm. apply R0_spec with (e' := fun v => if Nat.even v then (if Nat.ltb (Nat.div2 v) n then s (Nat.div2 v) else pathEnv p v) else pathEnv p v) in H0.
      + rewrite <- H0. unfold pos. apply Hf. intros v [Hv Ev]. destruct (even_cases v) as [[k ->]|[k ->]]; [|rewrite even_double1 in Ev; discriminate].
        rewrite tv_even, even_double, Nat.div2_double. rewrite (nvars_spec c Hk) in Hv.
        replace (Nat.ltb k n) with true; [reflexivity|]. symmetry. apply Nat.ltb_lt. lia.
      + intros v Hv. destruct (even_cases v) as [[k ->]|[k ->]]; [|now rewrite even_double1].
        rewrite even_double, Nat.div2_double. destruct (Nat.ltb_spec k n) as [Hlt|]; [|reflexivity].
        assert (pathEnv p (2 * k + 1) = false) as Hs.
        { apply not_true_iff_false. intros X. apply Hv. exists (2 * k + 1). split; [apply in_pairs; eauto|exact X]. }
        rewrite Hodd in Hs. apply negb_false_iff in Hs. destruct (Hm k) as [M1 M2].
        rewrite cubeOf_nth in M1, M2. apply Nat.ltb_lt in Hlt. rewrite Hlt in M1, M2. unfold literal in M1, M2. cbn [fst snd] in M1, M2.
        rewrite Hs in M1, M2. rewrite Heven. destruct (onPath p (2 * k) true); auto.
    - exists (fun k => pathEnv p (2 * k)). split.
      + unfold pos. rewrite <- Hc. apply Hcare. intros v [Hv Ev].
        destruct (even_cases v) as [[k ->]|[k ->]]; [|rewrite even_double1 in Ev; discriminate]. now rewrite tv_even.
      + intros k. rewrite cubeOf_nth, Heven. destruct (Nat.ltb k n); [|split; discriminate].
        unfold literal. cbn [fst snd]. destruct (onPath p (2 * k + 1) false), (onPath p (2 * k) true); split; intros; auto; discriminate.
  Qed.

  Lemma excluded_fold p ps : forall acc e,
    eval (fold_left (fun acc (ps : nat * nat) => if onPath p (snd ps) false then bor acc (bvar (snd ps)) else acc) ps acc) e = true <->
    eval acc e = true \/ exists q, In q ps /\ onPath p (snd q) false = true /\ e (snd q) = true.
  Proof.
    induction ps as [|q ps IH]; intros acc e; cbn [fold_left].
    - split; [auto|]. intros [H|(q & [] & _)]. exact H.
    - rewrite IH. destruct (onPath p (snd q) false) eqn:E.
      + rewrite eval_or, eval_var, orb_true_iff. split.
        * intros [[H|H]|(q' & H1 & H2)]; [auto|right; exists q; repeat split; auto; now left|right; exists q'; split; [now right|auto]].
        * intros [H|(q' & [<-|H1] & H2 & H3)]; [auto|auto|right; exists q'; auto].
      + split.
        * intros [H|(q' & H1 & H2)]; [auto|right; exists q'; split; [now right|auto]].
        * intros [H|(q' & [<-|H1] & H2 & H3)]; [auto|congruence|right; exists q'; auto].
  Qed.
  Lemma excluded_spec p e : eval (excluded p pairs) e = true <->
    exists k, k < n /\ onPath p (2 * k + 1) false = true /\ e (2 * k + 1) = true.
  Proof.
    unfold excluded. rewrite excluded_fold. split.
    - intros [H|([a b] & H1 & H2 & H3)]; [rewrite eval_false in H; discriminate|]. apply in_pairs in H1.
      destruct H1 as (k & Hlt & -> & ->). eauto.
    - intros (k & H1 & H2 & H3). right. exists (2 * k, 2 * k + 1). split; [apply in_pairs; eauto|auto].
  Qed.
  Lemma dep_excluded p : dep (isAnyV c) (excluded p pairs).
  Proof.
    unfold excluded. assert (forall ps acc, dep (isAnyV c) acc -> (forall q, In q ps -> isAnyV c (snd q)) ->
      dep (isAnyV c) (fold_left (fun acc (ps : nat * nat) => if onPath p (snd ps) false then bor acc (bvar (snd ps)) else acc) ps acc)) as G.
    { induction ps as [|q ps IH]; intros acc H1 H2; cbn [fold_left]; [exact H1|]. apply IH; [|intros; apply H2; now right].
      destruct (onPath p (snd q) false); [|exact H1]. apply dep_or; [exact H1|]. apply dep_var, H2. now left. }
    apply G; [apply dep_false|]. intros [a b] H. apply in_pairs in H. destruct H as (k & Hlt & -> & ->).
    unfold isAnyV. rewrite (nvars_spec c Hk). cbn. lia.
  Qed.
  Lemma dep_R0 : dep (isAnyV c) R0.
  Proof.
    unfold R0. assert (forall ps R, dep (isAnyV c) R -> (forall q, In q ps -> isAnyV c (snd q)) -> dep (isAnyV c) (fold_left mintermStep ps R)) as G.
    { induction ps as [|[a b] ps IH]; intros R H1 H2; cbn [fold_left]; [exact H1|]. apply IH; [|intros; apply H2; now right].
      unfold mintermStep. pose proof (H2 (a, b) (or_introl eq_refl)) as Hb. cbn in Hb.
      apply dep_or; (apply dep_and; [|try apply dep_not; now apply dep_var]); [|exact H1].
      apply dep_not. eapply dep_exists; [apply dep_not, H1|auto]. }
    apply G; [now apply isPre_isAny|]. intros [a b] H. apply in_pairs in H. destruct H as (k & Hlt & -> & ->).
    unfold isAnyV. rewrite (nvars_spec c Hk). cbn. lia.
  Qed.

  Variables (pick : BF -> list (nat * bool)) (render : list Z -> string).
  Hypothesis Hpick : forall R, isFalse R = false -> isPath (bft R) (pick R) = true.

  (** A later cube leaves a variable open that an earlier cube determines. *)
  Definition opens (earlier later : list Z) : Prop := exists k, nth k earlier 0%Z <> 0%Z /\ nth k later 0%Z = 0%Z.

  Definition cubeOK (cube : list Z) : Prop :=
    length cube = n /\ Forall (fun z => In z [(-1)%Z; 0%Z; 1%Z]) cube /\
    (forall s, matches cube s -> pos f s = true) /\ (exists s, pos care s = true /\ matches cube s).
  Definition cubesInv (st : BF * (list string * list (list Z))) : Prop :=
    let '(R, (seen, out)) := st in
    dep (isAnyV c) R /\ (forall e, eval R e = true -> eval R0 e = true /\ eval care e = true) /\
    Forall cubeOK out /\ length out <= 7 /\
    (forall cube, In cube out -> forall e, eval R e = true -> exists k, k < n /\ nth k cube 0%Z <> 0%Z /\ e (2 * k + 1) = true) /\
    ForallOrdPairs opens out /\
    (forall cube, In cube out -> In (render cube) seen) /\ NoDup (map render out) /\
    (out = [] -> seen = [] /\ R = band R0 care).

  Definition totalR (R : BF) : nat := length (filter (fun l => eval R (ofVec l)) (vectors (length (varTypes c)))).

  Lemma fop_snoc {A} (Q : A -> A -> Prop) l a : ForallOrdPairs Q l -> Forall (fun x => Q x a) l -> ForallOrdPairs Q (l ++ [a]).
  Proof.
    induction 1 as [|x l H HO IH]; intros F; cbn [app]; [repeat constructor|]. inversion F; subst. constructor.
    - apply Forall_app. split; [assumption|]. repeat constructor. assumption.
    - now apply IH.
  Qed.
  Lemma nodup_snoc {A} (l : list A) a : NoDup l -> ~ In a l -> NoDup (l ++ [a]).
  Proof. intros H N. apply nodup_app; [exact H|repeat constructor; intros []|]. intros x Hx [<-|[]]. contradiction. Qed.

  Lemma cubes_step st : cubesInv st ->
    match cubesBody c pick render st with
    | Cont st' => cubesInv st' /\ totalR (fst st') < totalR (fst st)
    | Done _ => True
    | Abort => False
    end.
  Proof.
    destruct st as [R [seen out]]. intros (I1 & I2 & I3 & I4 & I5 & I6 & I7 & I8 & I9). unfold cubesBody.
    destruct (Nat.ltb (length out) 7 && negb (isFalse R)) eqn:EC; [|exact I].
    apply andb_true_iff in EC. destruct EC as [E1 E2]. apply Nat.ltb_lt in E1. apply negb_true_iff in E2.
    pose proof (Hpick R E2) as HP. set (p := pick R) in *. unfold nextMinterm. rewrite combine_pairs. fold (cubeOf p).
    set (R' := band R (excluded p pairs)).
    pose proof (pathEnv_eval R p HP) as Hpe.
    assert (Hodd : forall k, pathEnv p (2 * k + 1) = negb (onPath p (2 * k + 1) false)).
    { intros k. unfold pathEnv. rewrite even_double1. destruct (onPath p (2 * k + 1) true) eqn:E3, (onPath p (2 * k + 1) false) eqn:E4; auto.
      apply onPath_in in E3, E4. exfalso. exact (path_det _ _ _ _ (bft_ok R) HP E3 E4). }
    assert (dep (isAnyV c) R') as D' by (apply dep_and; [exact I1|apply dep_excluded]).
    assert (totalR R' < totalR R) as HT.
    { apply filter_length_lt.
      - intros l _. unfold R'. rewrite eval_and, andb_true_iff. tauto.
      - exists (toVec (length (varTypes c)) (pathEnv p)). split; [apply toVec_in|].
        assert (forall g, dep (isAnyV c) g -> eval g (ofVec (toVec (length (varTypes c)) (pathEnv p))) = eval g (pathEnv p)) as G.
        { intros g Hg. apply Hg. intros v Hv. now apply ofVec_toVec. }
        rewrite (G R' D'), (G R I1). split; [|exact Hpe]. unfold R'. rewrite eval_and, Hpe. cbn.
        apply not_true_iff_false. intros X. apply excluded_spec in X. destruct X as (k & _ & X1 & X2). rewrite Hodd, X1 in X2. discriminate. }
    assert (forall e, eval R' e = true -> eval R0 e = true /\ eval care e = true) as I2'.
    { intros e. unfold R'. rewrite eval_and, andb_true_iff. intros [H _]. now apply I2. }
    assert (forall e, eval R' e = true -> exists k, k < n /\ nth k (cubeOf p) 0%Z <> 0%Z /\ e (2 * k + 1) = true) as Hnew.
    { intros e. unfold R'. rewrite eval_and, andb_true_iff. intros [_ H]. apply excluded_spec in H.
      destruct H as (k & H1 & H2 & H3). exists k. split; [exact H1|]. split; [|exact H3]. rewrite cubeOf_nth.
      apply Nat.ltb_lt in H1. rewrite H1. unfold literal. cbn [fst snd]. rewrite H2. destruct (onPath p (2 * k) true); discriminate. }
    assert (forall cube, In cube out -> forall e, eval R' e = true -> exists k, k < n /\ nth k cube 0%Z <> 0%Z /\ e (2 * k + 1) = true) as I5'.
    { intros cube Hc e. unfold R'. rewrite eval_and, andb_true_iff. intros [H _]. now apply I5. }
    assert (cubeOK (cubeOf p)) as HOK.
    { split; [unfold cubeOf, pairs; now rewrite !map_length, seq_length|]. split; [|now apply (cube_sound R)].
      apply Forall_forall. intros z Hz. unfold cubeOf in Hz. apply in_map_iff in Hz. destruct Hz as (q & <- & _). unfold literal.
      destruct (onPath p (snd q) false), (onPath p (fst q) true); cbn; auto. }
    destruct (existsb (String.eqb (render (cubeOf p))) seen) eqn:ES; (split; [|exact HT]).
    - refine (conj D' (conj I2' (conj I3 (conj I4 (conj I5' (conj I6 (conj I7 (conj I8 _)))))))).
      intros ->. destruct (I9 eq_refl) as [-> _]. discriminate.
    - refine (conj D' (conj I2' (conj _ (conj _ (conj _ (conj _ (conj _ (conj _ _)))))))).
      + apply Forall_app. split; [exact I3|]. repeat constructor; apply HOK.
      + rewrite app_length. cbn. lia.
      + intros cube Hc. apply in_app_iff in Hc. destruct Hc as [Hc|[<-|[]]]; [now apply I5'|exact Hnew].
      + apply fop_snoc; [exact I6|]. apply Forall_forall. intros cube Hc.
        destruct (I5 cube Hc _ Hpe) as (k & H1 & H2 & H3). exists k. split; [exact H2|]. rewrite cubeOf_nth.
        apply Nat.ltb_lt in H1. rewrite H1. rewrite Hodd in H3. apply negb_true_iff in H3. unfold literal. cbn [fst snd]. now rewrite H3.
      + intros cube Hc. apply in_app_iff in Hc. destruct Hc as [Hc|[<-|[]]]; [right; now apply I7|now left].
      + rewrite map_app. apply nodup_snoc; [exact I8|]. intros Hin. apply in_map_iff in Hin. destruct Hin as (cube & Ec & Hc).
        apply I7 in Hc. apply not_true_iff_false in ES. apply ES. apply existsb_exists. exists (render cube). split; [exact Hc|].
        apply String.eqb_eq. auto.
      + intros E. destruct out; discriminate.
  Qed.

  Lemma cubes_run : (exists s, pos f s = true /\ pos care s = true) ->
    exists out, run (cubesBody c pick render) (fpFuel c) (band R0 care, ([], [])) = Some out /\
      out <> [] /\ length out <= 7 /\ Forall cubeOK out /\ ForallOrdPairs opens out /\ NoDup (map render out).
  Proof.
    intros (s0 & F1 & F2).
    assert (cubesInv (band R0 care, ([], []))) as H0.
    { refine (conj _ (conj _ (conj (Forall_nil _) (conj _ (conj _ (conj _ (conj _ (conj _ _)))))))).
      - apply dep_and; [apply dep_R0|now apply isPre_isAny].
      - intros e. rewrite eval_and, andb_true_iff. auto.
      - cbn. lia.
      - intros cube [].
      - constructor.
      - intros cube [].
      - constructor.
      - auto. }
    destruct (run_total (cubesBody c pick render) cubesInv (fun st => totalR (fst st)) (fpFuel c) _ H0 cubes_step) as (out & Er & Hr).
    { cbn [fst]. unfold totalR, fpFuel. cbn [Nat.pow]. pose proof (filter_length_all (fun l => eval (band R0 care) (ofVec l)) (vectors (length (varTypes c)))) as L.
      rewrite vectors_length in L. assert (0 < 2 ^ length (varTypes c)) by (apply Nat.neq_0_lt_0, Nat.pow_nonzero; lia). lia. }
    exists out. split; [exact Er|].
    destruct (Runs_last (cubesBody c pick render) cubesInv _ _ Hr H0) as ([R [seen out']] & HI & E).
    { intros st st' HI E. pose proof (cubes_step st HI) as X. rewrite E in X. exact (proj1 X). }
    destruct HI as (I1 & I2 & I3 & I4 & I5 & I6 & I7 & I8 & I9).
    assert (out' = out /\ Nat.ltb (length out') 7 && negb (isFalse R) = false) as [-> EC].
    { unfold cubesBody in E. destruct (Nat.ltb (length out') 7 && negb (isFalse R)).
      - destruct (nextMinterm _ _ _ _) as [cube R']. destruct (existsb _ _); discriminate.
      - injection E as ->. auto. }
    split; [|auto]. intros ->. destruct (I9 eq_refl) as [_ ->]. cbn in EC. apply negb_false_iff in EC.
    rewrite isFalse_spec in EC. specialize (EC (tv s0 (fun _ => false))). rewrite eval_and in EC.
    assert (eval care (tv s0 (fun _ => false)) = true) as Ec.
    { change (trans care s0 (fun _ => false) = true). rewrite (pos_trans c); auto. }
    rewrite Ec, andb_true_r in EC. apply not_true_iff_false in EC. apply EC. apply R0_spec. intros e' He'.
    rewrite <- F1. apply Hf. intros v [Hv Ev]. rewrite He'.
    - unfold tv. now rewrite Ev.
    - intros (s & H1 & H2). apply in_pairs in H1. destruct H1 as (k & _ & _ & ->). rewrite tv_odd in H2. discriminate.
  Qed.
End CUBES.
