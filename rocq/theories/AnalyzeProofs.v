(** * Proofs about the analysis of the initial positions *)

From Coq Require Import String Ascii ZArith NArith Arith List Bool Lia.
From Verif Require Import BDD Loop Spec VarTypes Synth Sem FixBase Explicit SynthProofs Verdict FormulaSpec Parser ParserProofs FileSpec FileProofs AnalyzeSpec Analyze.
Import ListNotations.
Local Open Scope list_scope.

(** ** Counting *)

Fixpoint tvars (t : tree) : list nat :=
  match t with
  | Leaf _ => []
  | Node v l h => v :: tvars l ++ tvars h
  end.

Lemma tvars_ge t : forall n v, robdd n t = true -> In v (tvars t) -> n <= v.
Proof.
  induction t as [b|x l IHl h IHh]; intros n v H Hv; cbn in Hv; [destruct Hv|].
  cbn [robdd] in H. rewrite !andb_true_iff, Nat.leb_le in H. destruct H as (((H1 & H2) & H3) & _).
  destruct Hv as [<-|Hv]; [exact H1|]. apply in_app_iff in Hv.
  destruct Hv as [Hv|Hv]; [apply (IHl _ _ H2) in Hv|apply (IHh _ _ H3) in Hv]; lia.
Qed.

Lemma tvars_mk x v l h : In x (tvars (mk v l h)) -> x = v \/ In x (tvars l) \/ In x (tvars h).
Proof. unfold mk. destruct (tree_eqb l h); cbn; [auto|]. rewrite in_app_iff. intuition. Qed.

Lemma tvars_restrict x b t : forall n, robdd n t = true -> ~ In x (tvars (trestrict x b t)).
Proof.
  induction t as [a|v l IHl h IHh]; intros n H; cbn [trestrict]; [cbn; auto|].
  cbn [robdd] in H. rewrite !andb_true_iff, Nat.leb_le in H. destruct H as (((H1 & H2) & H3) & _).
  destruct (Nat.eqb_spec v x) as [->|Hne].
  - destruct b; intros Hx; [apply (tvars_ge _ _ _ H3) in Hx|apply (tvars_ge _ _ _ H2) in Hx]; lia.
  - destruct (Nat.ltb_spec x v) as [Hlt|Hge].
    + cbn. rewrite in_app_iff. intros [E|[E|E]]; [congruence| |].
      * apply (tvars_ge _ _ _ H2) in E. lia.
      * apply (tvars_ge _ _ _ H3) in E. lia.
    + intros Hx. apply tvars_mk in Hx. destruct Hx as [E|[E|E]]; [congruence| |].
      * now apply (IHl _ H2).
      * now apply (IHh _ H3).
Qed.

Lemma teval_tvars t : forall e e', (forall v, In v (tvars t) -> e v = e' v) -> teval t e = teval t e'.
Proof.
  induction t as [b|v l IHl h IHh]; intros e e' H; [reflexivity|]. cbn [teval].
  rewrite (H v) by now left. rewrite (IHl e e'), (IHh e e'); [reflexivity| |];
    intros x Hx; apply H; cbn; right; apply in_app_iff; auto.
Qed.

Transparent brestrict.
(** The variables that occur in the diagram are the ones the function depends on. *)
Lemma dep_tvars P f : (forall v, P v \/ ~ P v) -> dep P f <-> forall v, In v (tvars (bft f)) -> P v.
Proof.
  intros HP. split.
  - intros H v Hv. destruct (HP v) as [|Hn]; [assumption|]. exfalso.
    assert (brestrict v true f = f) as E.
    { apply bf_ext. intros e. rewrite eval_restrict. apply H. intros x Hx. apply upd_other. congruence. }
    apply (tvars_restrict v true (bft f) 0 (bft_ok f)).
    assert (bft (brestrict v true f) = trestrict v true (bft f)) as E2 by reflexivity.
    rewrite <- E2, E. exact Hv.
  - intros H e e' He. apply teval_tvars. auto.
Qed.
Opaque brestrict.

(** Cubes. *)
Fixpoint chain (vs : list nat) : tree :=
  match vs with
  | [] => Leaf true
  | v :: vs => Node v (Leaf false) (chain vs)
  end.
Inductive incr : nat -> list nat -> Prop :=
| incr_nil n : incr n []
| incr_cons n v vs : n <= v -> incr (S v) vs -> incr n (v :: vs).
Lemma chain_robdd vs : forall n, incr n vs -> robdd n (chain vs) = true.
Proof.
  induction vs as [|v vs IH]; intros n H; [reflexivity|]. inversion H as [|? ? ? H1 H2]; subst. cbn [chain robdd].
  rewrite (IH (S v)) by assumption. apply Nat.leb_le in H1. rewrite H1. cbn [andb].
  destruct vs; reflexivity.
Qed.
Lemma chain_eval vs e : teval (chain vs) e = forallb e vs.
Proof. induction vs as [|v vs IH]; cbn; [reflexivity|]. destruct (e v); auto. Qed.
Lemma incr_ge vs : forall n v, incr n vs -> In v vs -> n <= v.
Proof.
  induction vs as [|x vs IH]; intros n v H Hv; [destruct Hv|]. inversion H as [|? ? ? H3 H4]; subst.
  destruct Hv as [->|Hv]; [auto|]. apply (IH _ _ H4) in Hv. lia.
Qed.
Lemma incr_weaken n m vs : m <= n -> incr n vs -> incr m vs.
Proof. intros H. destruct 1; constructor; auto; lia. Qed.
Lemma incr_filter p : forall k n m, m <= n -> incr m (filter p (seq n k)).
Proof.
  induction k as [|k IH]; intros n m H; cbn [seq filter]; [constructor|].
  destruct (p n); [constructor; [lia|]|]; apply IH; lia.
Qed.
Definition chainOf (vs : list nat) : list nat := filter (fun v => existsb (Nat.eqb v) vs) (seq 0 (S (list_max vs))).
Lemma chainOf_in vs v : In v (chainOf vs) <-> In v vs.
Proof.
  unfold chainOf. rewrite filter_In, in_seq, existsb_exists. split.
  - intros (_ & x & Hx & E). apply Nat.eqb_eq in E. now subst.
  - intros H. split; [|exists v; split; [auto|apply Nat.eqb_refl]].
    assert (v <= list_max vs); [|lia].
    pose proof (proj1 (list_max_le vs (list_max vs)) (le_n _)) as F. rewrite Forall_forall in F. auto.
Qed.
Lemma cubeBF_eval vs e : eval (cubeBF vs) e = forallb e vs.
Proof. induction vs as [|v vs IH]; cbn [cubeBF fold_right forallb]; [reflexivity|]. rewrite eval_and, eval_var. f_equal. exact IH. Qed.
Lemma cubeBF_chain vs : bft (cubeBF vs) = chain (chainOf vs).
Proof.
  apply (robdd_canon _ _ 0).
  - apply bft_ok.
  - apply chain_robdd. unfold chainOf. apply incr_filter. lia.
  - intros e. change (eval (cubeBF vs) e = teval (chain (chainOf vs)) e). rewrite cubeBF_eval, chain_eval.
    apply eq_true_iff_eq. rewrite !forallb_forall. split; intros H v Hv; apply H; now apply chainOf_in.
Qed.
Lemma incr_unique vs : forall vs' n, incr n vs -> incr n vs' -> (forall v, In v vs <-> In v vs') -> vs = vs'.
Proof.
  induction vs as [|x vs IH]; intros vs' n H H' E.
  - destruct vs' as [|y vs']; [reflexivity|]. destruct (proj2 (E y) (or_introl eq_refl)).
  - destruct vs' as [|y vs']; [destruct (proj1 (E x) (or_introl eq_refl))|].
    inversion H as [|? ? ? H3 H4]; subst. inversion H' as [|? ? ? H5 H6]; subst.
    assert (x = y) as ->.
    { destruct (proj1 (E x) (or_introl eq_refl)) as [|Hx]; [auto|]. destruct (proj2 (E y) (or_introl eq_refl)) as [|Hy]; [auto|].
      apply (incr_ge _ _ _ H4) in Hy. apply (incr_ge _ _ _ H6) in Hx. lia. }
    f_equal. apply (IH vs' (S y)); auto. intros v. split; intros Hv.
    + destruct (proj1 (E v) (or_intror Hv)) as [->|]; [apply (incr_ge _ _ _ H4) in Hv; lia|auto].
    + destruct (proj2 (E v) (or_intror Hv)) as [->|]; [apply (incr_ge _ _ _ H6) in Hv; lia|auto].
Qed.

Definition satNumber (vs : list nat) (t : tree) : N :=
  N.of_nat (length (filter (fun l => teval t (place vs l)) (vectors (length vs)))).
Lemma filter_map_len {A B} (g : A -> B) p l : length (filter p (map g l)) = length (filter (fun x => p (g x)) l).
Proof. induction l as [|a l IH]; cbn; [reflexivity|]. destruct (p (g a)); cbn; now rewrite IH. Qed.
Lemma filter_len_ext {A} (p q : A -> bool) l : (forall x, p x = q x) -> length (filter p l) = length (filter q l).
Proof. intros H. now rewrite (filter_ext _ _ H). Qed.
Lemma satNumber_cons v vs t :
  satNumber (v :: vs) t =
  (N.of_nat (length (filter (fun l => teval t (upd (place vs l) v true)) (vectors (length vs)))) +
   N.of_nat (length (filter (fun l => teval t (upd (place vs l) v false)) (vectors (length vs)))))%N.
Proof.
  unfold satNumber. cbn [length vectors]. rewrite filter_app, app_length, !filter_map_len, Nat.add_comm, Nnat.Nat2N.inj_add.
  reflexivity.
Qed.
Lemma place_upd t v l vs b n : robdd n t = true -> v < n ->
  teval t (upd (place vs l) v b) = teval t (place vs l).
Proof. intros H Hv. exact (teval_upd_lt t n v b _ H Hv). Qed.

Lemma countRec_spec vs : forall n t, incr n vs -> robdd n t = true ->
  if forallb (fun v => existsb (Nat.eqb v) vs) (tvars t) then countRec (chain vs) t = Some (satNumber vs t)
  else countRec (chain vs) t = None.
Proof.
  induction vs as [|v vs IH]; intros n t Hi Hr.
  - destruct t as [b|x l h]; cbn; [destruct b; reflexivity|reflexivity].
  - inversion Hi as [|? ? ? Hv Hvs]; subst. destruct t as [b|x l h].
    + cbn [tvars forallb chain countRec]. specialize (IH (S v) (Leaf b) Hvs eq_refl). cbn [tvars forallb] in IH.
      rewrite IH. cbn [nanDouble]. f_equal. rewrite satNumber_cons. unfold satNumber. cbn [teval]. lia.
    + cbn [chain countRec]. cbn [robdd] in Hr. rewrite !andb_true_iff, Nat.leb_le in Hr.
      destruct Hr as (((R1 & R2) & R3) & R4).
      destruct (Nat.ltb_spec v x) as [Hlt|Hge].
      * assert (robdd (S v) (Node x l h) = true) as Hr'.
        { cbn [robdd]. rewrite !andb_true_iff, Nat.leb_le. repeat split; auto. }
        specialize (IH (S v) (Node x l h) Hvs Hr').
        assert (forallb (fun y => existsb (Nat.eqb y) (v :: vs)) (tvars (Node x l h)) =
                forallb (fun y => existsb (Nat.eqb y) vs) (tvars (Node x l h))) as E.
        { apply eq_true_iff_eq. rewrite !forallb_forall. split; intros H y Hy; specialize (H y Hy).
          - cbn [existsb] in H. apply (tvars_ge _ _ _ Hr') in Hy.
            replace (Nat.eqb y v) with false in H; [exact H|]. symmetry. apply Nat.eqb_neq. lia.
          - cbn [existsb]. rewrite H. apply orb_true_r. }
        rewrite E. destruct (forallb _ _).
        -- rewrite IH. cbn [nanDouble]. f_equal. rewrite satNumber_cons. unfold satNumber.
           rewrite !(filter_len_ext (fun l0 => teval (Node x l h) (upd (place vs l0) v _)) (fun l0 => teval (Node x l h) (place vs l0)))
             by (intros l0; apply (place_upd _ _ _ _ _ (S v)); auto). lia.
        -- now rewrite IH.
      * destruct (Nat.ltb_spec x v) as [Hlt|Hge'].
        -- assert (forallb (fun y => existsb (Nat.eqb y) (v :: vs)) (tvars (Node x l h)) = false) as ->; [|reflexivity].
           cbn [tvars forallb]. apply andb_false_iff. left. apply not_true_iff_false. intros E.
           apply existsb_exists in E. destruct E as (y & Hy & E). apply Nat.eqb_eq in E. subst y.
           destruct Hy as [|Hy]; [lia|]. apply (incr_ge _ _ _ Hvs) in Hy. lia.
        -- assert (x = v) as -> by lia.
           assert (forall t', robdd (S v) t' = true ->
             forallb (fun y => existsb (Nat.eqb y) (v :: vs)) (tvars t') = forallb (fun y => existsb (Nat.eqb y) vs) (tvars t')) as E.
           { intros t' Ht'. apply eq_true_iff_eq. rewrite !forallb_forall. split; intros H y Hy; specialize (H y Hy).
             - cbn [existsb] in H. apply (tvars_ge _ _ _ Ht') in Hy.
               replace (Nat.eqb y v) with false in H; [exact H|]. symmetry. apply Nat.eqb_neq. lia.
             - cbn [existsb]. rewrite H. apply orb_true_r. }
           cbn [tvars forallb]. rewrite forallb_app, (E l R2), (E h R3). cbn [existsb]. rewrite Nat.eqb_refl. cbn [orb andb].
           pose proof (IH (S v) l Hvs R2) as I1. pose proof (IH (S v) h Hvs R3) as I2.
           destruct (forallb _ (tvars l)); cbn [andb]; [|rewrite I1; destruct (countRec (chain vs) h); reflexivity].
           destruct (forallb _ (tvars h)); [|now rewrite I2].
           rewrite I1, I2. cbn [nanAdd]. f_equal. rewrite satNumber_cons. unfold satNumber. cbn [teval].
           f_equal; f_equal; apply filter_len_ext; intros l0; rewrite upd_same; symmetry; apply (place_upd _ _ _ _ _ (S v)); auto.
Qed.

(** The function yields the number of satisfying valuations, or NaN if the set depends
    on other variables. *)
Lemma countSat_some vs ks f : incr 0 ks -> (forall v, In v vs <-> In v ks) -> dep (fun v => In v ks) f ->
  countSat vs f = Some (satNumber ks (bft f)).
Proof.
  intros Hi E D. unfold countSat. rewrite cubeBF_chain.
  assert (chainOf vs = ks) as ->.
  { apply (incr_unique _ _ 0); auto; [apply incr_filter; lia|]. intros v. rewrite chainOf_in. apply E. }
  pose proof (countRec_spec ks 0 (bft f) Hi (bft_ok f)) as H.
  replace (forallb (fun v => existsb (Nat.eqb v) ks) (tvars (bft f))) with true in H; [exact H|].
  symmetry. apply forallb_forall. intros v Hv. apply existsb_exists. exists v. split; [|apply Nat.eqb_refl].
  assert (forall v, In v ks \/ ~ In v ks) as Hdec by (intros x; destruct (in_dec Nat.eq_dec x ks); auto).
  now apply (proj1 (dep_tvars _ _ Hdec) D).
Qed.
Lemma countSat_none vs f : countSat vs f = None <-> ~ dep (fun v => In v vs) f.
Proof.
  assert (forall v, In v vs \/ ~ In v vs) as Hdec by (intros x; destruct (in_dec Nat.eq_dec x vs); auto).
  unfold countSat. rewrite cubeBF_chain, (dep_tvars _ _ Hdec).
  assert (incr 0 (chainOf vs)) as Hi by (apply incr_filter; lia).
  pose proof (countRec_spec (chainOf vs) 0 (bft f) Hi (bft_ok f)) as H.
  destruct (forallb _ _) eqn:E.
  - rewrite H. split; [discriminate|]. intros N. exfalso. apply N. intros v Hv.
    rewrite forallb_forall in E. specialize (E v Hv). apply existsb_exists in E. destruct E as (y & Hy & E).
    apply Nat.eqb_eq in E. subst. now apply chainOf_in.
  - split; [|auto]. intros _ N. apply not_true_iff_false in E. apply E. apply forallb_forall. intros v Hv.
    apply existsb_exists. exists v. split; [|apply Nat.eqb_refl]. apply chainOf_in. auto.
Qed.

Lemma nodup_app {A} (l l' : list A) : NoDup l -> NoDup l' -> (forall x, In x l -> In x l' -> False) -> NoDup (l ++ l').
Proof.
  induction 1 as [|a l Ha Hl IH]; intros H' D; cbn; [exact H'|]. constructor.
  - rewrite in_app_iff. intros [H|H]; [contradiction|]. apply (D a); [now left|exact H].
  - apply IH; [exact H'|]. intros x H1 H2. apply (D x); [now right|exact H2].
Qed.
Lemma vectors_NoDup n : NoDup (vectors n).
Proof.
  induction n as [|n IH]; cbn; [constructor; [intros []|constructor]|].
  assert (forall b, NoDup (map (cons b) (vectors n))) as M.
  { intros b. apply FinFun.Injective_map_NoDup; [|exact IH]. intros x y E. now injection E. }
  apply nodup_app; auto. intros x Hx Hy. apply in_map_iff in Hx, Hy. destruct Hx as (? & <- & _). destruct Hy as (? & ? & _). discriminate.
Qed.
Lemma vectors_len n : forall l, In l (vectors n) -> length l = n.
Proof.
  induction n as [|n IH]; intros l; cbn.
  - intros [<-|[]]. reflexivity.
  - rewrite in_app_iff, !in_map_iff. intros [(x & <- & H)|(x & <- & H)]; cbn; now rewrite (IH x H).
Qed.

Definition evens (ks : list nat) : list nat := map (fun k => 2 * k) ks.
Lemma in_evens ks v : In v (evens ks) <-> exists k, v = 2 * k /\ In k ks.
Proof. unfold evens. rewrite in_map_iff. split; intros (k & H1 & H2); exists k; auto. Qed.
Lemma evens_incr ks : forall n, incr n ks -> incr (2 * n) (evens ks).
Proof.
  induction ks as [|k ks IH]; intros n H; [constructor|]. inversion H as [|? ? ? H1 H2]; subst. cbn [evens map].
  constructor; [lia|]. apply (incr_weaken (2 * S k)); [lia|]. now apply IH.
Qed.
Lemma place_evens ks : forall l k, place (evens ks) l (2 * k) = place ks l k.
Proof.
  induction ks as [|x ks IH]; intros [|b l] k; try reflexivity. cbn [evens map place].
  replace (Nat.eqb (2 * k) (2 * x)) with (Nat.eqb k x).
  - destruct (Nat.eqb k x); [reflexivity|]. apply IH.
  - destruct (Nat.eqb_spec k x), (Nat.eqb_spec (2 * k) (2 * x)); try reflexivity; lia.
Qed.
Lemma count_number vs ks f P : incr 0 ks -> (forall v, In v vs <-> exists k, v = 2 * k /\ In k ks) ->
  dep (fun v => exists k, v = 2 * k /\ In k ks) f ->
  (forall s, pos f s = true <-> P s) ->
  exists n, countSat vs f = Some n /\ numberOf ks P n.
Proof.
  intros Hi Hv Hd HP. exists (satNumber (evens ks) (bft f)). split.
  - apply countSat_some.
    + change 0 with (2 * 0). now apply evens_incr.
    + intros v. now rewrite in_evens.
    + eapply dep_weaken; [|exact Hd]. intros v H. now apply in_evens.
  - unfold numberOf, satNumber. exists (filter (fun l => teval (bft f) (place (evens ks) l)) (vectors (length (evens ks)))).
    split; [apply NoDup_filter, vectors_NoDup|]. split; [reflexivity|].
    intros v. rewrite filter_In. unfold evens at 1. rewrite map_length.
    assert (teval (bft f) (place (evens ks) v) = pos f (place ks v)) as E.
    { change (eval f (place (evens ks) v) = eval f (tv (place ks v) (place ks v))). apply Hd.
      intros x (k & -> & _). rewrite place_evens. now rewrite tv_even. }
    rewrite E, HP. split; intros [H1 H2]; split; auto; [now apply vectors_len|now apply in_vectors].
Qed.

Section ANALYZE.
  Variable c : ctx.
  Hypothesis Hwf : wf c.
  Let Hk := wf_kinds c Hwf.
  Local Notation pre := (dep (isPreV c)).

  Lemma pre_even f : pre f -> dep (fun v => exists k, v = 2 * k /\ In k (seq 0 (nvars c))) f.
  Proof.
    apply dep_weaken. intros v [Hv E]. destruct (even_cases v) as [[k ->]|[k ->]]; [|rewrite even_double1 in E; discriminate].
    exists k. split; [reflexivity|]. rewrite in_seq. rewrite (nvars_spec c Hk) in Hv. lia.
  Qed.
  Definition inputsOf : list nat := filter (fun k => negb (isOut c k)) (seq 0 (nvars c)).
  Lemma preIn_even f : dep (isPreInV c) f -> dep (fun v => exists k, v = 2 * k /\ In k inputsOf) f.
  Proof.
    apply dep_weaken. intros v [[Hv E] O]. destruct (even_cases v) as [[k ->]|[k ->]]; [|rewrite even_double1 in E; discriminate].
    exists k. split; [reflexivity|]. unfold inputsOf. rewrite filter_In, in_seq. rewrite (nvars_spec c Hk) in Hv.
    rewrite Nat.div2_double in O. rewrite O. split; [lia|reflexivity].
  Qed.
  Lemma count_pre f P : pre f -> (forall s, pos f s = true <-> P s) ->
    exists n, countSat (varCubePre c) f = Some n /\ numberOf (seq 0 (nvars c)) P n.
  Proof.
    intros Hf HP. apply (count_number _ _ f); [|intros v|now apply pre_even|exact HP].
    - assert (seq 0 (nvars c) = filter (fun _ => true) (seq 0 (nvars c))) as ->.
      { generalize (seq 0 (nvars c)). induction l as [|a l IH]; cbn; [reflexivity|now f_equal]. }
      apply incr_filter. lia.
    - rewrite (in_cubePre c Hk). split; intros (k & -> & H); exists k; (split; [reflexivity|]); [rewrite in_seq; lia|rewrite in_seq in H; lia].
  Qed.
  Lemma count_in f P : dep (isPreInV c) f -> (forall s, pos f s = true <-> P s) ->
    exists n, countSat (varCubePreInput c) f = Some n /\ numberOf inputsOf P n.
  Proof.
    intros Hf HP. apply (count_number _ _ f); [|intros v|now apply preIn_even|exact HP].
    - apply incr_filter. lia.
    - rewrite (in_PreInput c Hk). unfold inputsOf. split.
      + intros (k & -> & H & O). exists k. rewrite filter_In, in_seq, O. split; [reflexivity|]. split; [lia|reflexivity].
      + intros (k & -> & H). rewrite filter_In, in_seq in H. destruct H as [H O]. exists k. apply negb_true_iff in O. repeat split; auto; lia.
  Qed.

  (** ** Reachable states *)
  Lemma exPre_trans f s t : dep (isAnyV c) f ->
    trans (bexists (varCubePre c) f) s t = true <-> exists s', trans f s' t = true.
  Proof.
    intros D. unfold trans. rewrite eval_exists. split.
    - intros (e & Ha & He). exists (fun k => e (2 * k)). rewrite <- He. apply D. intros v Hv.
      destruct (even_cases v) as [[k ->]|[k ->]]; rewrite ?tv_even, ?tv_odd; [reflexivity|].
      rewrite <- Ha; [now rewrite tv_odd|]. rewrite (in_cubePre c Hk). intros (m & E & _). lia.
    - intros (s' & H). exists (tv (fun k => if Nat.ltb k (nvars c) then s' k else s k) t). split.
      + intros v Hv. destruct (even_cases v) as [[k ->]|[k ->]]; rewrite ?tv_even, ?tv_odd; [|reflexivity].
        destruct (Nat.ltb_spec k (nvars c)) as [L|L]; [|reflexivity]. elim Hv. apply (in_cubePre c Hk). eauto.
      + rewrite <- H. apply (trans_ext c Hk f); [exact D| |reflexivity].
        intros k Hlt. apply Nat.ltb_lt in Hlt. now rewrite Hlt.
  Qed.
  Lemma dep_exPre f : dep (isAnyV c) f -> dep (fun v => isAnyV c v /\ Nat.even v = false) (bexists (varCubePre c) f).
  Proof.
    intros D. eapply dep_exists; [exact D|]. intros v Hv Hn. split; [exact Hv|].
    destruct (even_cases v) as [[k ->]|[k ->]]; [|apply even_double1]. elim Hn. apply (in_cubePre c Hk). exists k.
    unfold isAnyV in Hv. rewrite (nvars_spec c Hk) in Hv. split; [reflexivity|lia].
  Qed.
  Definition image (r : BF) : BF := swapPrePost c (bexists (varCubePre c) (band r (band (safetyEnv c) (safetySys c)))).
  Lemma any_step r : pre r -> dep (isAnyV c) (band r (band (safetyEnv c) (safetySys c))).
  Proof.
    intros H. apply dep_and; [now apply isPre_isAny|]. apply dep_and; [apply dep_weaken with (2 := wf_safetyEnv c Hwf); now intros v [Hv _]|apply (wf_safetySys c Hwf)].
  Qed.
  Lemma pre_image r : pre r -> pre (image r).
  Proof.
    intros H. unfold image, swapPrePost. eapply dep_swap; [apply dep_exPre, any_step, H|].
    intros v [Hv E]. destruct (even_cases v) as [[k ->]|[k ->]]; [rewrite even_double in E; discriminate|].
    unfold isAnyV in Hv. rewrite (nvars_spec c Hk) in Hv.
    destruct (swapf_spec _ _ (vectors_spec c Hk) k) as [_ S2]. rewrite S2.
    destruct (in_dec Nat.eq_dec (2 * k) (varVectorPre c)) as [_|N].
    - split; [rewrite (nvars_spec c Hk); lia|apply even_double].
    - elim N. apply (in_varVectorPre c Hk). lia.
  Qed.
  Lemma image_spec r t : pre r -> pos (image r) t = true <->
    exists s, pos r s = true /\ trans (safetyEnv c) s t = true /\ trans (safetySys c) s t = true.
  Proof.
    intros H. rewrite <- (pos_trans c _ t t (pre_image r H)). unfold image.
    rewrite (trans_swap c Hk); [|eapply dep_weaken; [|apply dep_exPre, any_step, H]; now intros v [Hv _]].
    rewrite exPre_trans by now apply any_step. split; intros (s & E); exists s.
    - rewrite !trans_and, !andb_true_iff, (pos_trans c) in E by exact H. exact E.
    - rewrite !trans_and, !andb_true_iff, (pos_trans c) by exact H. exact E.
  Qed.

  Lemma reachable_spec : exists r, reachableStates c = Some r /\ pre r /\ forall s, pos r s = true <-> reach (game_of c) s.
  Proof.
    set (init := band (initSys c) (initEnv c)).
    assert (pre init) as Hinit.
    { apply dep_and; [apply (wf_initSys c Hwf)|apply dep_weaken with (2 := wf_initEnv c Hwf); now intros v [H _]]. }
    set (Inv := fun st : BF * BF => pre (fst st) /\ pre (snd st) /\ sub (snd st) (fst st) /\ sub init (fst st) /\
       (forall s t, pos (snd st) s = true -> trans (safetyEnv c) s t = true -> trans (safetySys c) s t = true -> pos (fst st) t = true) /\
       (forall s, pos (fst st) s = true -> reach (game_of c) s)).
    assert (Inv (init, bfalse)) as H0.
    { refine (conj _ (conj _ (conj _ (conj _ (conj _ _))))); cbn [fst snd].
      - exact Hinit.
      - apply dep_false.
      - apply sub_false.
      - apply sub_refl.
      - intros s t H. rewrite pos_false in H. discriminate.
      - intros s. unfold init. rewrite pos_and, andb_true_iff. intros [H1 H2]. apply reach_init; assumption. }
    assert (forall st, Inv st -> match reachBody c st with
              | Cont st' => Inv st' /\ 2 ^ nvars c - card c (snd st') < 2 ^ nvars c - card c (snd st)
              | Done _ => True | Abort => False end) as Hs.
    { intros [r old] (I1 & I2 & I3 & I4 & I5 & I6). cbn [fst snd] in *. unfold reachBody.
      destruct (bf_eqb_spec r old) as [|Hne]; [exact I|]. split.
      - fold (image r). refine (conj _ (conj _ (conj _ (conj _ (conj _ _))))); cbn [fst snd].
        + apply dep_or; [exact I1|now apply pre_image].
        + exact I1.
        + apply sub_or_l.
        + eapply sub_trans; [exact I4|apply sub_or_l].
        + intros s t H1 H2 H3. rewrite pos_or, (proj2 (image_spec r t I1)); [apply orb_true_r|eauto].
        + intros t. rewrite pos_or, orb_true_iff, image_spec by exact I1.
          intros [H|(s & H1 & H2 & H3)]; [auto|]. eapply reach_step; [apply I6; exact H1|exact H2|exact H3].
      - cbn [snd]. assert (card c old < card c r) by (apply card_lt; auto).
        pose proof (card_bound c r). lia. }
    destruct (run_total (reachBody c) Inv (fun st => 2 ^ nvars c - card c (snd st)) (fpFuel c) (init, bfalse) H0 Hs) as (r & Er & Hr).
    { apply pow_lt_fuel; [exact Hk|lia]. }
    exists r. split; [exact Er|].
    assert (Inv (r, r)) as (I1 & _ & _ & I4 & I5 & I6).
    { destruct (Runs_last (reachBody c) Inv _ _ Hr H0) as ([r' old] & HI & E).
      - intros st st' HI E. specialize (Hs st HI). rewrite E in Hs. exact (proj1 Hs).
      - unfold reachBody in E. destruct (bf_eqb_spec r' old) as [->|]; [|discriminate]. injection E as ->. exact HI. }
    cbn [fst snd] in *. split; [exact I1|]. intros s. split; [apply I6|].
    induction 1 as [s E1 E2|s t _ IH E1 E2].
    - apply I4. unfold init. rewrite pos_and. cbn in E1, E2. now rewrite E1, E2.
    - exact (I5 s t IH E1 E2).
  Qed.
End ANALYZE.

(** ** Reading the file *)
Section LIMITS.
  Variable ord : nat -> bool.

  Lemma limitComment_spec s : String.eqb (substring 0 20 s) limitPrefix = limitComment s.
  Proof.
    unfold limitComment. destruct (prefix "## Variable limits: " s) eqn:E.
    - apply prefix_correct in E. change (String.length "## Variable limits: ") with 20 in E. rewrite E. reflexivity.
    - apply String.eqb_neq. intros X. apply Bool.not_true_iff_false in E. apply E, prefix_correct. exact X.
  Qed.

  Definition initItem (p : section * string) : bool := sec_eqb (fst p) SEnvInit || sec_eqb (fst p) SSysInit.
  Definition readsAs (D : items) (p : section * string) (b : BF) : Prop := lineVal ord D (fst p) (snd p) = POk (Some b).

  Lemma readsAs_mono D D' its bs : Forall2 (readsAs D) its bs -> Forall2 (readsAs (D ++ D')) its bs.
  Proof. induction 1; constructor; auto. now apply lineVal_mono. Qed.

  Lemma processLinesL_spec : forall lines cur L bs flag its lims m c flag' lim,
    values ord L L bs -> incl lims (bs SEnvInit ++ bs SSysInit) -> Forall2 (readsAs L) its lims ->
    processLinesL ord ((modeOf cur, contextOf L bs), (flag, bandAll lims)) lines = POk ((m, c), (flag', lim)) ->
    processLines ord (modeOf cur, contextOf L bs) lines = POk (m, c) /\
    exists L2 bs' lims', layout cur lines = Some L2 /\ values ord (L ++ L2) (L ++ L2) bs' /\
      c = contextOf (L ++ L2) bs' /\ lim = bandAll lims' /\ incl lims' (bs' SEnvInit ++ bs' SSysInit) /\
      Forall2 (readsAs (L ++ L2)) (its ++ filter initItem (markedLines cur flag lines)) lims' /\
      forall s line, In (s, line) (markedLines cur flag lines) -> s <> SEnvLive /\ s <> SSysLive.
  Proof.
    induction lines as [|l lines IH]; intros cur L bs flag its lims m c flag' lim HV HL HF E.
    - cbn in E. injection E as <- <- _ <-. split; [reflexivity|]. exists [], bs, lims. cbn. rewrite !app_nil_r. intuition.
    - cbn [processLinesL] in E. cbn [processLines layout markedLines]. unfold processLineL in E.
      rewrite trim_spec in E. destruct (strip l) as [|a r] eqn:S.
      { cbn [pbind] in E. unfold processLine at 1. rewrite trim_spec, S. cbn [pbind]. eapply IH; eauto. }
      destruct (a =? "#")%char eqn:A1.
      { cbn [pbind] in E. unfold processLine at 1. rewrite trim_spec, S, A1. cbn [pbind].
        rewrite limitComment_spec in E. replace (flag || limitComment (String a r)) with
          (if limitComment (String a r) then true else flag) by (destruct (limitComment _), flag; reflexivity).
        eapply IH; eauto. }
      destruct (a =? "[")%char eqn:A2.
      { unfold processLine in E |- *. rewrite trim_spec, S, A1, A2, category_spec in E |- *.
        destruct (find _ sections) as [s|]; [|discriminate]. cbn [pbind] in E |- *. eapply IH; eauto. }
      destruct cur as [s|].
      2:{ unfold processLine in E. rewrite trim_spec, S, A1, A2 in E. discriminate. }
      assert (Hc : forall a0 r0, String a r = String a0 r0 -> (a0 =? "#")%char = false /\ (a0 =? "[")%char = false).
      { intros a0 r0 X. injection X as <- <-. auto. }
      destruct (formulaSection s) eqn:FS.
      + pose proof (content_line ord L bs s _ FS l S Hc ltac:(discriminate)) as CL. rewrite CL in E. rewrite CL.
        destruct (lineVal ord L s (String a r)) as [[b|]|e| |] eqn:V; cbn [pbind] in E |- *; try discriminate.
        assert (V2 : lineVal ord (L ++ [(s, String a r)]) s (String a r) = POk (Some b)) by now apply lineVal_mono.
        assert (values ord (L ++ [(s, String a r)]) (L ++ [(s, String a r)]) (ext bs s b)) as HV2.
        { apply values_ext; [now apply values_mono|exact V2]. }
        assert (incl lims (ext bs s b SEnvInit ++ ext bs s b SSysInit)) as HL2.
        { intros x Hx. apply HL in Hx. unfold ext. rewrite !in_app_iff in *. destruct (sec_eqb s SEnvInit), (sec_eqb s SSysInit); rewrite ?in_app_iff; tauto. }
        pose proof (readsAs_mono L [(s, String a r)] its lims HF) as HF2.
        pose proof (formula_val ord L bs s (String a r)) as FV. rewrite V in FV.
        assert (exists lims2, incl lims2 (ext bs s b SEnvInit ++ ext bs s b SSysInit) /\
           Forall2 (readsAs (L ++ [(s, String a r)])) (its ++ if flag then filter initItem [(s, String a r)] else []) lims2 /\
           (flag = true -> s <> SEnvLive /\ s <> SSysLive) /\
           processLinesL ord ((modeOf (Some s), contextOf (L ++ [(s, String a r)]) (ext bs s b)), (false, bandAll lims2)) lines =
             POk ((m, c), (flag', lim))) as (lims2 & HL3 & HF3 & HN & E3).
        { destruct flag.
          2:{ exists lims. rewrite app_nil_r. split; [exact HL2|]. split; [exact HF2|]. split; [discriminate|].
              destruct s; try discriminate; exact E. }
          destruct s; try discriminate; cbn [modeOf allowedF] in E, FV; try discriminate.
          - rewrite FV in E. cbn [pbind] in E. exists (lims ++ [b]). rewrite bandAll_snoc. split; [|split; [|split; [split; discriminate|exact E]]].
            + intros x Hx. apply in_app_iff in Hx. destruct Hx as [Hx|[<-|[]]]; [now apply HL2|].
              unfold ext. cbn [sec_eqb]. rewrite !in_app_iff. left. right. now left.
            + apply Forall2_app; auto. cbn. constructor; [exact V2|constructor].
          - rewrite FV in E. cbn [pbind] in E. exists (lims ++ [b]). rewrite bandAll_snoc. split; [|split; [|split; [split; discriminate|exact E]]].
            + intros x Hx. apply in_app_iff in Hx. destruct Hx as [Hx|[<-|[]]]; [now apply HL2|].
              unfold ext. cbn [sec_eqb]. rewrite !in_app_iff. right. right. now left.
            + apply Forall2_app; auto. cbn. constructor; [exact V2|constructor].
          - exists lims. cbn. rewrite app_nil_r. split; [exact HL2|]. split; [exact HF2|]. split; [split; discriminate|exact E].
          - exists lims. cbn. rewrite app_nil_r. split; [exact HL2|]. split; [exact HF2|]. split; [split; discriminate|exact E]. }
        destruct (IH (Some s) _ _ _ _ _ _ _ _ _ HV2 HL3 HF3 E3) as (P1 & L2 & bs' & lims' & El & HV' & -> & -> & HI & HF' & HN').
        split; [exact P1|]. rewrite El. exists ((s, String a r) :: L2), bs', lims'.
        rewrite <- !app_assoc in *. split; auto. split; auto. split; auto. split; auto. split; auto. split.
        * destruct flag; [|exact HF']. cbn [filter] in HF' |- *. now destruct (initItem (s, String a r)).
        * destruct flag; [|exact HN']. intros s' line [X|X]; [|eauto]. injection X as <- <-. auto.
      + pose proof (decl_line ord L bs s _ FS l S Hc ltac:(discriminate)) as DL. rewrite DL in E. rewrite DL.
        cbn [pbind] in E |- *.
        assert (values ord (L ++ [(s, String a r)]) (L ++ [(s, String a r)]) bs) as HV2.
        { apply values_decl; [exact FS|now apply values_mono]. }
        pose proof (readsAs_mono L [(s, String a r)] its lims HF) as HF2.
        assert (processLinesL ord ((modeOf (Some s), contextOf (L ++ [(s, String a r)]) bs), (false, bandAll lims)) lines =
             POk ((m, c), (flag', lim))) as E3.
        { destruct s; try discriminate; exact E. }
        destruct (IH (Some s) _ _ _ _ _ _ _ _ _ HV2 HL HF2 E3) as (P1 & L2 & bs' & lims' & El & HV' & -> & -> & HI & HF' & HN').
        split; [exact P1|]. rewrite El. exists ((s, String a r) :: L2), bs', lims'.
        rewrite <- !app_assoc in *. split; auto. split; auto. split; auto. split; auto. split; auto. split.
        * destruct flag; [|exact HF']. cbn [filter].
          assert (initItem (s, String a r) = false) as -> by (destruct s; try discriminate; reflexivity). exact HF'.
        * destruct flag; [|exact HN']. intros s' line [X|X]; [|eauto]. injection X as <- <-. destruct s; try discriminate; split; discriminate.
  Qed.

  (** Conversely. *)
  Lemma processLinesL_accepts : forall lines cur L bs flag lim m c,
    values ord L L bs ->
    processLines ord (modeOf cur, contextOf L bs) lines = POk (m, c) ->
    (forall s line, In (s, line) (markedLines cur flag lines) -> s <> SEnvLive /\ s <> SSysLive) ->
    exists r, processLinesL ord ((modeOf cur, contextOf L bs), (flag, lim)) lines = POk ((m, c), r).
  Proof.
    induction lines as [|l lines IH]; intros cur L bs flag lim m c HV E HN.
    - cbn in *. injection E as <- <-. eauto.
    - cbn [processLinesL markedLines] in *. cbn [processLines] in E. unfold processLineL.
      rewrite trim_spec. destruct (strip l) as [|a r] eqn:S.
      { unfold processLine at 1 in E. rewrite trim_spec, S in E. cbn [pbind] in *. eapply IH; eauto. }
      destruct (a =? "#")%char eqn:A1.
      { unfold processLine at 1 in E. rewrite trim_spec, S, A1 in E. cbn [pbind] in *. rewrite limitComment_spec.
        replace (if limitComment (String a r) then true else flag) with (flag || limitComment (String a r))
          by (destruct (limitComment _), flag; reflexivity). eapply IH; eauto. }
      destruct (a =? "[")%char eqn:A2.
      { unfold processLine in E |- *. rewrite trim_spec, S, A1, A2, category_spec in E |- *.
        destruct (find _ sections) as [s|]; [|discriminate]. cbn [pbind] in E |- *. eapply (IH (Some s)); eauto. }
      destruct cur as [s|].
      2:{ unfold processLine at 1 in E. rewrite trim_spec, S, A1, A2 in E. discriminate. }
      assert (Hc : forall a0 r0, String a r = String a0 r0 -> (a0 =? "#")%char = false /\ (a0 =? "[")%char = false).
      { intros a0 r0 X. injection X as <- <-. auto. }
      assert (HN1 : forall s' line, In (s', line) (markedLines (Some s) false lines) -> s' <> SEnvLive /\ s' <> SSysLive).
      { intros s' line X. apply (HN s' line). destruct flag; [now right|exact X]. }
      assert (HN2 : flag = true -> s <> SEnvLive /\ s <> SSysLive).
      { intros ->. apply (HN s (String a r)). now left. }
      destruct (formulaSection s) eqn:FS.
      + pose proof (content_line ord L bs s _ FS l S Hc ltac:(discriminate)) as CL. rewrite CL in E |- *.
        destruct (lineVal ord L s (String a r)) as [[b|]|e| |] eqn:V; cbn [pbind] in E |- *; try discriminate.
        assert (values ord (L ++ [(s, String a r)]) (L ++ [(s, String a r)]) (ext bs s b)) as HV2.
        { apply values_ext; [now apply values_mono|now apply lineVal_mono]. }
        pose proof (formula_val ord L bs s (String a r)) as FV. rewrite V in FV.
        pose proof (fun lim' => IH (Some s) _ _ false lim' m c HV2 E HN1) as G.
        destruct flag.
        2:{ destruct s; try discriminate; apply G. }
        destruct (HN2 eq_refl) as [N1 N2].
        destruct s; try discriminate; try contradiction; cbn [modeOf allowedF] in FV |- *; rewrite ?FV; cbn [pbind]; apply G.
      + pose proof (decl_line ord L bs s _ FS l S Hc ltac:(discriminate)) as DL. rewrite DL in E |- *.
        cbn [pbind] in E |- *.
        assert (values ord (L ++ [(s, String a r)]) (L ++ [(s, String a r)]) bs) as HV2.
        { apply values_decl; [exact FS|now apply values_mono]. }
        pose proof (IH (Some s) _ _ false lim m c HV2 E HN1) as G.
        destruct s; try discriminate; exact G.
  Qed.

  Lemma initLimits_accepts content c : initContext ord content = POk c ->
    (forall s line, In (s, line) (markedLines None false (file_lines content)) -> s <> SEnvLive /\ s <> SSysLive) ->
    exists lim, initLimits ord content = POk (c, lim).
  Proof.
    unfold initLimits, initContext. rewrite getlines_spec. intros E HN.
    destruct (processLines ord (MNone, emptyCtx) (file_lines content)) as [[m c0]|e| |] eqn:P; cbn [pbind] in E; try discriminate.
    change (MNone, emptyCtx) with (modeOf None, contextOf [] (fun _ => [])) in P |- *.
    destruct (processLinesL_accepts _ None _ _ false btrue m c0 (values_nil ord) P HN) as ([fl lim] & ->).
    cbn [pbind]. rewrite E. cbn [pbind]. eauto.
  Qed.

  Lemma initLimits_spec content c lim : initLimits ord content = POk (c, lim) ->
    initContext ord content = POk c /\ wf c /\ dep (isPreV c) lim /\
    (forall s, pos (initEnv c) s = true -> pos (initSys c) s = true -> pos lim s = true) /\
    (exists bs, Forall2 (fun p b => parseFormula (varNames c) (varTypes c) (allowedF (fst p)) ord (snd p) = POk (Some b))
                        (limitLines content) bs /\
       forall e, eval lim e = forallb (fun b => eval b e) bs) /\
    forall s line, In (s, line) (markedLines None false (file_lines content)) -> s <> SEnvLive /\ s <> SSysLive.
  Proof.
    unfold initLimits, initContext. rewrite getlines_spec. intros E.
    destruct (processLinesL ord _ _) as [[[m c0] [fl l0]]|e| |] eqn:P; cbn [pbind] in E; try discriminate.
    change ((MNone, emptyCtx), (false, btrue)) with ((modeOf None, contextOf [] (fun _ => [])), (false, bandAll [])) in P.
    apply processLinesL_spec with (its := []) in P; [|apply values_nil|intros x []|constructor].
    destruct P as (P1 & L & bs & lims & El & HV & -> & -> & HI & HF & HN). cbn [app] in *.
    change (MNone, emptyCtx) with (modeOf None, contextOf [] (fun _ => [])). rewrite P1. cbn [pbind].
    assert (exists c1, finish (contextOf L bs) = POk c1 /\ c = c1 /\ bandAll lims = lim) as (c1 & F & -> & <-).
    { destruct (finish (contextOf L bs)) as [c1|e| |]; cbn [pbind] in E; try discriminate. injection E as <- <-. eauto. }
    split; [exact F|].
    assert (initContext ord content = POk c1) as IC.
    { unfold initContext. rewrite getlines_spec. change (MNone, emptyCtx) with (modeOf None, contextOf [] (fun _ => [])). rewrite P1. exact F. }
    unfold finish in F. destruct (Nat.eqb _ _); [|discriminate]. 
    assert (c1 = finalContext L bs) as ->.
    { injection F as <-. unfold finalContext, orTrue, contextOf. cbn. f_equal; [destruct (bs SEnvLive)|destruct (bs SSysLive)]; reflexivity. }
    pose proof (final_wf ord L bs HV) as W. split; [exact W|]. split; [|split; [|split]].
    3:{ exists lims. split; [exact HF|]. intros e. apply bandAll_eval. }
    3:{ exact HN. }
    - apply dep_bandAll. apply Forall_forall. intros b Hb. apply HI in Hb. apply in_app_iff in Hb.
      pose proof (values_dep ord L bs SEnvInit eq_refl HV) as D1. pose proof (values_dep ord L bs SSysInit eq_refl HV) as D2.
      rewrite Forall_forall in D1, D2.
      assert (forall s v, (s = SEnvInit \/ s = SSysInit) -> okVar (declared L) (typesF L) (allowedF s) v -> isPreV (finalContext L bs) v) as OK.
      { intros s v Hs [H1 H2]. assert (formulaSection s = true) as FS by (destruct Hs; subst; reflexivity).
        pose proof (proj1 (allowed_may_use L s v FS H1) H2) as M. unfold isPreV. cbn [varTypes finalContext]. rewrite length_types.
        split; [exact H1|]. unfold Nat.odd in M. destruct Hs; subst; cbn in M; destruct (Nat.even v); auto; cbn in M;
          rewrite ?andb_false_r in M; discriminate. }
      destruct Hb as [Hb|Hb]; [eapply dep_weaken; [|now apply D1]|eapply dep_weaken; [|now apply D2]]; intros v; apply OK; auto.
    - intros s. unfold pos. cbn [initEnv initSys finalContext]. rewrite !bandAll_eval, !forallb_forall. intros H1 H2 b Hb.
      apply HI in Hb. apply in_app_iff in Hb. destruct Hb; auto.
  Qed.
End LIMITS.
