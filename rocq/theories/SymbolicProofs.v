(** * Proofs about symbolic strategies *)

From Coq Require Import String Ascii Arith List Bool Lia.
From Verif Require Import FormulaSpec FileSpec BDD Loop Spec VarTypes Synth Sem FixBase GameSound SynthProofs Verdict Solvers AutSpec OutputSpec
  SymSpec Explicit ExplicitProofs ExplicitGame OutputProofs Symbolic.
Import ListNotations.
Open Scope list_scope.

Local Arguments isOut : simpl never.

(** ** Names *)
Lemma bitName_spec k : bitName k = counterBit k.
Proof. reflexivity. Qed.

Lemma sapp_inj a b c : (a ++ b = a ++ c)%string -> b = c.
Proof. induction a as [|x a IH]; cbn; auto. intros H. injection H as H. auto. Qed.

Lemma counterBit_inj j k : counterBit j = counterBit k -> j = k.
Proof. intros H. apply sapp_inj in H. now apply showNat_inj in H. Qed.

Lemma list_ascii_inj a : forall b, list_ascii_of_string a = list_ascii_of_string b -> a = b.
Proof. induction a as [|x a IH]; intros [|y b]; cbn; intros H; try discriminate; auto. injection H as -> H. f_equal. auto. Qed.

Lemma quote_not_digit s : allDigits s = true -> ~ In "'"%char (list_ascii_of_string s).
Proof.
  induction s as [|a s IH]; cbn; auto. rewrite andb_true_iff. intros [Ha Hs] [->|H]; [discriminate|now apply IH].
Qed.

Lemma counterBit_quote j k : counterBit j <> counterBit' k.
Proof.
  intros H. unfold counterBit', counterBit in H. rewrite sapp_assoc in H. apply sapp_inj in H.
  apply (quote_not_digit (showNat j)); [apply digits_string|]. unfold showNat. rewrite H, list_ascii_app.
  apply in_or_app. right. now left.
Qed.

Lemma counterBit'_inj j k : counterBit' j = counterBit' k -> j = k.
Proof.
  intros H. apply counterBit_inj. apply (f_equal list_ascii_of_string) in H. unfold counterBit' in H.
  rewrite !list_ascii_app in H. apply list_ascii_inj. now apply app_inv_tail in H.
Qed.

Lemma added_bit n k i i' b : k < n -> addedVal n (counterBit k) i i' b = Nat.testbit i k.
Proof.
  intros Hk. unfold addedVal. change (String.eqb (counterBit k) "strat_type") with false. cbn [andb]. rewrite orb_false_r.
  apply eq_true_iff_eq. rewrite existsb_exists. split.
  - intros (j & _ & H). apply orb_true_iff in H. rewrite !andb_true_iff, !String.eqb_eq in H.
    destruct H as [[H H']|[H _]]; [|now apply counterBit_quote in H]. apply counterBit_inj in H. now subst.
  - intros H. exists k. rewrite in_seq, String.eqb_refl, H. split; [lia|reflexivity].
Qed.

Lemma added_bit' n k i i' b : k < n -> addedVal n (counterBit' k) i i' b = Nat.testbit i' k.
Proof.
  intros Hk. unfold addedVal. change (String.eqb (counterBit' k) "strat_type") with false. cbn [andb]. rewrite orb_false_r.
  apply eq_true_iff_eq. rewrite existsb_exists. split.
  - intros (j & _ & H). apply orb_true_iff in H. rewrite !andb_true_iff, !String.eqb_eq in H.
    destruct H as [[H _]|[H H']]; [symmetry in H; now apply counterBit_quote in H|]. apply counterBit'_inj in H. now subst.
  - intros H. exists k. rewrite in_seq, String.eqb_refl, H. split; [lia|apply orb_true_r].
Qed.

Lemma added_type n i i' b : addedVal n "strat_type" i i' b = b.
Proof.
  unfold addedVal. change (String.eqb "strat_type" "strat_type") with true.
  destruct (existsb _ _) eqn:E; [|reflexivity]. apply existsb_exists in E. destruct E as (k & _ & H). discriminate.
Qed.

(** ** Allocation of the counter bits *)
Definition preIdx (encoded : bool) (base j : nat) : nat := base + if encoded then 2 * j else j.
Definition bitNames (encoded : bool) (k : nat) : list string :=
  flat_map (fun j => if encoded then [counterBit j; counterBit' j] else [counterBit j]) (seq 0 k).

Lemma bitNames_length encoded k : length (bitNames encoded k) = preIdx encoded 0 k.
Proof.
  unfold bitNames, preIdx. induction k as [|k IH]; [now destruct encoded|].
  rewrite seq_S, flat_map_app, app_length, IH. destruct encoded; cbn; lia.
Qed.

Lemma bitNames_nth encoded k j : j < k ->
  nth (preIdx encoded 0 j) (bitNames encoded k) EmptyString = counterBit j /\
  (encoded = true -> nth (preIdx encoded 0 j + 1) (bitNames encoded k) EmptyString = counterBit' j).
Proof.
  induction k as [|k IH]; intros Hj; [lia|].
  assert (L := bitNames_length encoded k).
  unfold bitNames in *. rewrite seq_S, flat_map_app. cbn [flat_map]. rewrite app_nil_r.
  destruct (Nat.eq_dec j k) as [->|Hne].
  - split.
    + rewrite app_nth2 by lia. rewrite L, Nat.sub_diag. now destruct encoded.
    + intros ->. rewrite app_nth2 by lia. rewrite L. replace (preIdx true 0 k + 1 - preIdx true 0 k) with 1 by lia. reflexivity.
  - destruct IH as [I1 I2]; [lia|].
    assert (preIdx encoded 0 j + (if encoded then 1 else 0) < preIdx encoded 0 k) by (unfold preIdx; destruct encoded; lia).
    split.
    + rewrite app_nth1 by (destruct encoded; lia). exact I1.
    + intros ->. rewrite app_nth1 by lia. now apply I2.
Qed.

Lemma iter_alloc encoded names types k :
  Nat.iter k (allocBit encoded) (mkSymVars names types [] []) =
  mkSymVars (names ++ bitNames encoded k) (types ++ repeat SymbolicStrategyCounterVar (preIdx encoded 0 k))
    (map (preIdx encoded (length types)) (seq 0 k))
    (if encoded then map (fun j => preIdx encoded (length types) j + 1) (seq 0 k) else []).
Proof.
  induction k as [|k IH].
  - cbn. rewrite !app_nil_r. destruct encoded; cbn; now rewrite app_nil_r.
  - cbn [Nat.iter nat_rect]. change (nat_rect _ ?x (fun _ => ?f) k) with (Nat.iter k f x). rewrite IH. unfold allocBit, addCounterVar. cbn [sv_names sv_types sv_pre sv_post].
    rewrite map_length, seq_length, !app_length, repeat_length.
    unfold bitNames. rewrite !seq_S, flat_map_app. cbn [flat_map Nat.add]. rewrite app_nil_r.
    destruct encoded; cbn [sv_names sv_types sv_pre sv_post length].
    + f_equal.
      * rewrite <- !app_assoc. reflexivity.
      * rewrite <- !app_assoc. f_equal. replace (preIdx true 0 (S k)) with (preIdx true 0 k + 2) by (unfold preIdx; lia).
        now rewrite repeat_app.
      * now rewrite map_app.
      * rewrite map_app. f_equal.
    + f_equal.
      * now rewrite app_assoc.
      * rewrite <- app_assoc. f_equal. replace (preIdx false 0 (S k)) with (preIdx false 0 k + 1) by (unfold preIdx; lia).
        now rewrite (repeat_app _ (preIdx false 0 k) 1).
      * now rewrite map_app.
Qed.

Lemma iter_shift {A} (f : A -> A) k v : Nat.iter k f (f v) = Nat.iter (S k) f v.
Proof. induction k as [|k IH]; [reflexivity|]. exact (f_equal f IH). Qed.

Lemma allocLoop_spec encoded goals : forall fuel a v, goals < 2 ^ a + fuel ->
  exists k, goals < 2 ^ (a + k) /\ allocLoop (S fuel) encoded goals (2 ^ a) v = Some (Nat.iter k (allocBit encoded) v).
Proof.
  induction fuel as [|fuel IH]; intros a v H.
  - exists 0. rewrite Nat.add_0_r in *. split; auto. cbn [allocLoop].
    destruct (Nat.leb_spec (2 ^ a) goals); [lia|reflexivity].
  - remember (S fuel) as f. cbn [allocLoop]. destruct (Nat.leb_spec (2 ^ a) goals) as [Hle|Hlt].
    + subst f. destruct (IH (S a) (allocBit encoded v)) as (k & Hk & E).
      * assert (0 < 2 ^ a) by (apply Nat.neq_0_lt_0, Nat.pow_nonzero; lia). cbn [Nat.pow]. lia.
      * exists (S k). split; [replace (a + S k) with (S a + k) by lia; auto|].
        change (2 * 2 ^ a) with (2 ^ S a). rewrite E. f_equal.
        apply iter_shift.
    + exists 0. rewrite Nat.add_0_r. auto.
Qed.

(** ** The encoding of a number *)
Lemma encoding_gen value e l : forall acc,
  eval (fold_left (encodingStep value) l acc) e = true <->
  eval acc e = true /\ (forall j p, In (j, p) l -> e p = Nat.testbit value j).
Proof.
  induction l as [|[j p] l IH]; intros acc; cbn [fold_left].
  - split; [intros H; split; auto; intros ? ? []|tauto].
  - rewrite IH. unfold encodingStep at 1. cbn [fst snd]. rewrite eval_and, andb_true_iff.
    assert (E : eval (if Nat.testbit value j then bvar p else bnot (bvar p)) e = true <-> e p = Nat.testbit value j).
    { destruct (Nat.testbit value j); rewrite ?eval_not, eval_var; [tauto|]. now rewrite negb_true_iff. }
    rewrite E. split.
    + intros [[H1 H2] H3]. split; auto. intros j' p' [H|H]; [injection H as <- <-; auto|auto].
    + intros [H1 H2]. repeat split; auto. * apply H2. now left. * intros j' p' H. apply H2. now right.
Qed.

Lemma combine_seq_In {A} (l : list A) j p : In (j, p) (combine (seq 0 (length l)) l) <-> nth_error l j = Some p.
Proof.
  assert (G : forall a, In (j, p) (combine (seq a (length l)) l) <-> a <= j /\ nth_error l (j - a) = Some p).
  { induction l as [|x l IH]; intros a; cbn [length seq combine].
    - cbn. destruct (j - a); cbn; split; [intros []|intros [_ H]; discriminate|intros []|intros [_ H]; discriminate].
    - cbn [In]. rewrite IH. split.
      + intros [H|[H1 H2]]; [injection H as <- <-; rewrite Nat.sub_diag; auto|].
        split; [lia|]. replace (j - a) with (S (j - S a)) by lia. exact H2.
      + intros [H1 H2]. destruct (Nat.eq_dec a j) as [->|Hne].
        * rewrite Nat.sub_diag in H2. cbn in H2. left. now injection H2 as ->.
        * right. split; [lia|]. replace (j - a) with (S (j - S a)) in H2 by lia. exact H2. }
  rewrite G, Nat.sub_0_r. split; [tauto|]. split; [lia|tauto].
Qed.

Lemma encoding_spec (idx : nat -> nat) k value e :
  eval (encoding (map idx (seq 0 k)) value) e = true <-> forall j, j < k -> e (idx j) = Nat.testbit value j.
Proof.
  unfold encoding. rewrite encoding_gen, eval_true. split.
  - intros [_ H] j Hj. apply H. apply combine_seq_In. rewrite nth_error_map, nth_error_nth' with (d := 0) by now rewrite seq_length.
    cbn. now rewrite seq_nth.
  - intros H. split; auto. intros j p Hp. apply combine_seq_In in Hp. rewrite nth_error_map in Hp.
    destruct (nth_error (seq 0 k) j) as [x|] eqn:E; [|discriminate]. injection Hp as <-.
    assert (j < k) by (rewrite <- (seq_length k 0); apply nth_error_Some; congruence).
    rewrite nth_error_nth' with (d := 0) in E by now rewrite seq_length. injection E as <-. rewrite seq_nth by auto. now apply H.
Qed.

Lemma testbit_high i k j : i < 2 ^ k -> k <= j -> Nat.testbit i j = false.
Proof.
  intros Hi Hj. destruct (Nat.eq_dec i 0) as [->|Hn]; [apply Nat.bits_0|].
  apply Nat.bits_above_log2. apply Nat.log2_lt_pow2; [lia|].
  eapply Nat.lt_le_trans; [exact Hi|]. apply Nat.pow_le_mono_r; lia.
Qed.

Lemma bits_equal i j k : i < 2 ^ k -> j < 2 ^ k -> (forall b, b < k -> Nat.testbit i b = Nat.testbit j b) -> i = j.
Proof.
  intros Hi Hj H. apply Nat.bits_inj. intros b. destruct (Nat.lt_ge_cases b k) as [Hb|Hb]; [auto|].
  now rewrite !(testbit_high _ k).
Qed.

(** ** The combined strategy *)
Section SYM.
  Variable c : ctx.
  Hypothesis Hwf : wf c.
  Hypothesis HNames : length (varNames c) = length (varTypes c).
  Local Notation M := (length (livenessGuarantees c)).
  Local Notation N := (nvars c).

  Variable data : list (nat * BF).
  Hypothesis HD : Forall (fun e => fst e < M -> dep (isAnyV c) (snd e)) data.

  Let HK : exists kinds, varTypes c = typesOf kinds /\ forallb isPreKind kinds = true := wf_kinds c Hwf.

  Lemma sym_positional j : j < M -> dep (isAnyV c) (positional c data j).
  Proof.
    intros Hj. apply any_positional; auto. eapply Forall_impl; [|exact HD]. intros e He <-. auto.
  Qed.

  Lemma symVal_trans names f s t i i' b : dep (isAnyV c) f -> eval f (symVal N names s t i i' b) = trans f s t.
  Proof.
    intros D. apply D. intros v Hv. unfold isAnyV in Hv. rewrite (nvars_spec c HK) in Hv. unfold symVal.
    destruct (Nat.ltb_spec v (2 * N)); [reflexivity|lia].
  Qed.

  Lemma combined_gen encoded strategy v sel e l : forall acc,
    eval (fold_left (combineStep encoded c strategy v sel) l acc) e = true <->
    eval acc e = true \/ exists i, In i l /\ eval (combineStep encoded c strategy v sel bfalse i) e = true.
  Proof.
    induction l as [|i l IH]; intros acc; cbn [fold_left].
    - split; [auto|]. intros [H|(i & [] & _)]; auto.
    - rewrite IH.
      assert (E : eval (combineStep encoded c strategy v sel acc i) e = true <->
        eval acc e = true \/ eval (combineStep encoded c strategy v sel bfalse i) e = true).
      { unfold combineStep. destruct encoded; rewrite !eval_or, eval_false, !orb_true_iff; intuition congruence. }
      rewrite E. cbn [In]. split.
      + intros [[H|H]|(i' & H1 & H2)]; eauto.
      + intros [H|(i' & [->|H1] & H2)]; eauto.
  Qed.

  Definition guarantee (i : nat) (s t : state) : bool := trans (nth i (livenessGuarantees c) btrue) s t.

  Lemma guarantee_eval names i s t j j' b : i < M ->
    eval (nth i (livenessGuarantees c) bfalse) (symVal N names s t j j' b) = guarantee i s t.
  Proof.
    intros Hi. unfold guarantee. rewrite (nth_indep _ bfalse btrue Hi). apply symVal_trans.
    pose proof (wf_gua c Hwf) as H. rewrite Forall_forall in H. apply H. now apply nth_In.
  Qed.

  Definition counterBits (encoded : bool) (names : list string) : nat :=
    if encoded then Nat.div2 (length names - 2 * N) else pred (length names - 2 * N).

  (** The extracted relation. *)
  Lemma extractSymbolic_spec encoded : exists y k, extractSymbolic encoded c data = Some y /\
    sy_names y = varNames c ++ addedNames encoded k /\ M < 2 ^ k /\ counterBits encoded (sy_names y) = k /\
    (exists v, sy_header y = header encoded M v /\ sv_names v = sy_names y /\
       sv_types v = varTypes c ++ repeat SymbolicStrategyCounterVar (length (addedNames encoded k))) /\
    forall s t i i' b, i < 2 ^ k -> i' < 2 ^ k ->
      eval (sy_rel y) (symVal N (sy_names y) s t i i' b) = true <->
      i < M /\ trans (positional c data i) s t = true /\
      (if encoded then i' = (if guarantee i s t then (i + 1) mod M else i) else b = true -> guarantee i s t = true).
  Proof.
    assert (HM : 0 < M) by (pose proof (wf_gua_ne c Hwf); destruct (livenessGuarantees c); [now elim H|cbn; lia]).
    assert (LT : length (varTypes c) = 2 * N) by apply (nvars_spec c HK).
    unfold extractSymbolic.
    destruct (allocLoop_spec encoded M (S M) 0 (mkSymVars (varNames c) (varTypes c) [] [])) as (k & Hk & E); [lia|].
    change (2 ^ 0) with 1 in E. rewrite E, iter_alloc. cbn [Nat.add] in Hk. clear E.
    assert (BN : addedNames encoded k = bitNames encoded k ++ if encoded then [] else ["strat_type"%string]).
    { unfold addedNames, bitNames. destruct encoded; [now rewrite app_nil_r|]. f_equal. }
    set (v0 := mkSymVars _ _ _ _).
    set (names := varNames c ++ addedNames encoded k).
    assert (LN : length names = 2 * N + preIdx encoded 0 k + if encoded then 0 else 1).
    { unfold names. rewrite BN, !app_length, bitNames_length, HNames, LT. destruct encoded; cbn; lia. }
    assert (EV : exists v sel, (if encoded then (v0, 0) else addCounterVar "strat_type" v0) = (v, sel) /\
      sv_names v = names /\ sv_types v = varTypes c ++ repeat SymbolicStrategyCounterVar (length (addedNames encoded k)) /\
      sv_pre v = sv_pre v0 /\ sv_post v = sv_post v0 /\
      (encoded = false -> sel = 2 * N + preIdx encoded 0 k)).
    { destruct encoded.
      - exists v0, 0. unfold names. rewrite BN, app_nil_r, bitNames_length. repeat split; auto. discriminate.
      - eexists _, _. split; [reflexivity|]. unfold names. rewrite BN, app_length, bitNames_length. cbn [sv_names sv_types sv_pre sv_post v0 length].
        rewrite !app_length, repeat_length, (repeat_app _ (preIdx false 0 k) 1), !app_assoc, LT. repeat split; auto. }
    destruct EV as (v & sel & -> & V1 & V2 & V3 & V4 & V5).
    eexists _, k. split; [reflexivity|]. cbn [sy_names sy_header sy_rel]. rewrite V1. split; [reflexivity|]. split; [exact Hk|].
    assert (ECB : counterBits encoded names = k).
    { unfold counterBits. rewrite LN. unfold preIdx. destruct encoded.
      - replace (2 * N + (0 + 2 * k) + 0 - 2 * N) with (2 * k) by lia. apply Nat.div2_double.
      - lia. }
    split; [exact ECB|]. split; [exists v; auto|].
    intros s t i i' b Hi Hi'. set (e := symVal N names s t i i' b).
    assert (Hbig : forall j, j < k -> j < length names) by (intros j Hj; rewrite LN; unfold preIdx; destruct encoded; lia).
    assert (Hpre : forall j, j < k -> e (preIdx encoded (length (varTypes c)) j) = Nat.testbit i j).
    { intros j Hj. unfold e, symVal.
      destruct (Nat.ltb_spec (preIdx encoded (length (varTypes c)) j) (2 * N)) as [H|_]; [unfold preIdx in H; lia|].
      unfold names at 2. rewrite BN. rewrite app_nth2 by (unfold preIdx; lia).
      replace (preIdx encoded (length (varTypes c)) j - length (varNames c)) with (preIdx encoded 0 j) by (unfold preIdx; lia).
      destruct (bitNames_nth encoded k j Hj) as [B _].
      rewrite app_nth1 by (rewrite bitNames_length; unfold preIdx; destruct encoded; lia). rewrite B. now apply added_bit, Hbig. }
    assert (Hpost : encoded = true -> forall j, j < k -> e (preIdx encoded (length (varTypes c)) j + 1) = Nat.testbit i' j).
    { intros He j Hj. unfold e, symVal.
      destruct (Nat.ltb_spec (preIdx encoded (length (varTypes c)) j + 1) (2 * N)) as [H|_]; [unfold preIdx in H; lia|].
      unfold names at 2. rewrite BN. rewrite app_nth2 by (unfold preIdx; lia).
      replace (preIdx encoded (length (varTypes c)) j + 1 - length (varNames c)) with (preIdx encoded 0 j + 1) by (unfold preIdx; lia).
      destruct (bitNames_nth encoded k j Hj) as [_ B].
      rewrite app_nth1 by (rewrite bitNames_length; unfold preIdx; rewrite He; lia). rewrite (B He). now apply added_bit', Hbig. }
    assert (Hsel : encoded = false -> e sel = b).
    { intros He. rewrite (V5 He). unfold e, symVal.
      destruct (Nat.ltb_spec (2 * N + preIdx encoded 0 k) (2 * N)) as [H|_]; [lia|].
      unfold names at 2. rewrite BN, He. rewrite app_nth2 by lia. rewrite app_nth2; rewrite bitNames_length; [|lia].
      replace (2 * N + preIdx false 0 k - length (varNames c) - preIdx false 0 k) with 0 by lia. apply added_type. }
    assert (Epre : forall x, x < 2 ^ k -> eval (encoding (sv_pre v) x) e = true <-> i = x).
    { intros x Hx. rewrite V3. cbn [sv_pre v0]. rewrite encoding_spec. split.
      - intros H. apply (bits_equal _ _ k); auto. intros j Hj. rewrite <- (Hpre j Hj). auto.
      - intros <- j Hj. auto. }
    assert (Epost : encoded = true -> forall x, x < 2 ^ k -> eval (encoding (sv_post v) x) e = true <-> i' = x).
    { intros He x Hx. rewrite V4. cbn [sv_post v0]. rewrite He.
      rewrite (encoding_spec (fun j => preIdx true (length (varTypes c)) j + 1)). rewrite He in Hpost. split.
      - intros H. apply (bits_equal _ _ k); auto. intros j Hj. rewrite <- (Hpost eq_refl j Hj). auto.
      - intros <- j Hj. auto. }
    unfold combined. rewrite combined_gen, eval_false.
    assert (Est : forall x, x < M -> eval (combineStep encoded c (positional c data) v sel bfalse x) e = true <->
      i = x /\ trans (positional c data i) s t = true /\
      (if encoded then i' = (if guarantee i s t then (i + 1) mod M else i) else b = true -> guarantee i s t = true)).
    { intros x Hx. unfold combineStep. destruct encoded.
      - rewrite eval_or, eval_false, orb_false_l, !eval_and, eval_or, !eval_and, eval_not, !andb_true_iff, orb_true_iff, !andb_true_iff.
        rewrite Epre by lia. rewrite !Epost by (auto; try lia; pose proof (Nat.mod_upper_bound (x + 1) M); lia).
        unfold e. rewrite symVal_trans by now apply sym_positional. rewrite guarantee_eval by auto.
        split.
        + intros [[-> H] H']. repeat split; auto. destruct (guarantee x s t); cbn in H'; intuition discriminate.
        + intros (-> & H & H'). repeat split; auto. destruct (guarantee x s t); cbn; auto.
      - rewrite eval_or, eval_false, orb_false_l, !eval_and, eval_or, eval_not, eval_var, !andb_true_iff, orb_true_iff, negb_true_iff.
        rewrite Epre by lia. rewrite (Hsel eq_refl).
        unfold e. rewrite symVal_trans by now apply sym_positional. rewrite guarantee_eval by auto.
        split.
        + intros [[-> H] H']. repeat split; auto. intros ->. intuition discriminate.
        + intros (-> & H & H'). repeat split; auto. destruct b; auto. }
    split.
    - intros [H|(x & Hx & H)]; [discriminate|]. apply in_seq in Hx. apply Est in H; [|lia]. destruct H as (-> & H & H').
      split; [lia|]. auto.
    - intros (H1 & H2 & H3). right. exists i. rewrite in_seq. split; [lia|]. apply Est; auto.
  Qed.
End SYM.

(** ** The header *)
Lemma sconcat_app l l' : sconcat (l ++ l') = (sconcat l ++ sconcat l')%string.
Proof.
  induction l as [|a l IH]; [reflexivity|]. change ((a :: l) ++ l') with (a :: (l ++ l')). rewrite !sconcat_cons, IH.
  now rewrite sapp_assoc.
Qed.

Definition unlines (l : list string) : string := sconcat (map (fun s => s ++ nl)%string l).

Lemma unlines_nil : unlines [] = ""%string.
Proof. reflexivity. Qed.
Lemma unlines_cons a l : unlines (a :: l) = (a ++ nl ++ unlines l)%string.
Proof. unfold unlines. cbn [map]. now rewrite sconcat_cons, sapp_assoc. Qed.
Lemma unlines_app l l' : unlines (l ++ l') = (unlines l ++ unlines l')%string.
Proof. unfold unlines. now rewrite map_app, sconcat_app. Qed.

Lemma file_lines_unlines l : Forall noNl l -> file_lines (unlines l) = l.
Proof.
  induction 1 as [|s l Hs H IH]; [reflexivity|]. unfold unlines in *. cbn [map]. rewrite sconcat_cons, sapp_assoc, file_lines_line by auto.
  now rewrite IH.
Qed.

Definition head1 (encoded : bool) : list string :=
  (["# This file is a BDD exported by the SLUGS"; "#"; "# This BDD is a strategy."] ++
   (if encoded then [] else ["#"; "# This header contains extra information used by LTLMoP's BDDStrategy."]) ++
   ["# Currently, the only metadata is 1) the total number of system goals";
    "# and 2) the mapping between variable numbers and proposition names."; "#";
    "# Some special variables are also added:";
    "#       - `_jx_b*` are used as a binary vector (b0 is LSB) to indicate";
    "#         the index of the currently-pursued goal."] ++
   (if encoded then [] else
    ["#       - `strat_type` is a binary variable used to indicate whether we are";
     "#          moving closer to the current goal (0) or transitioning to the next goal (1)"; "#"]))%list%string.
Definition head2 : list string :=
  ["#"; "# For information about the DDDMP format, please see:";
   "#    http://www.cs.uleth.ca/~rice/cudd_docs/dddmp/dddmpAllFile.html#dddmpDump.c"; "#";
   "# For information about how this file is generated, please see the SLUGS source."; "#"]%string.
Definition headVar (encoded : bool) (v : symVars) (i : nat) : string :=
  let ty := nth i (sv_types v) NoneVariableType in
  ("#" ++ tab ++ showNat i ++ ": " ++
    (if encoded && (inherits ty PreInput || inherits ty PostInput) then "in_" else "") ++ nth i (sv_names v) "")%string.

Lemma header_lines encoded goals v : header encoded goals v =
  unlines ((head1 encoded ++ ["# Num goals: " ++ showNat goals; "# Variable names:"]%string) ++
    map (headVar encoded v) (seq 0 (length (sv_types v))) ++ head2).
Proof.
  rewrite !unlines_app. unfold header.
  rewrite !sconcat_app. rewrite sapp_assoc.
  assert (E : forall l, sconcat (map (headerVar encoded v) l) = unlines (map (headVar encoded v) l)).
  { induction l as [|i l IH]; [reflexivity|]. unfold unlines in *. cbn [map]. rewrite !sconcat_cons, IH. f_equal.
    unfold headerVar, headVar. rewrite !sconcat_cons, sconcat_nil, !sapp_assoc, sapp_nil. reflexivity. }
  rewrite E. set (vs := unlines (map _ _)). set (t := unlines head2).
  unfold t, head1, head2. clearbody vs. clear.
  destruct encoded; cbn [app]; rewrite !unlines_cons, !unlines_nil, !sconcat_cons, !sconcat_nil, ?sapp_assoc; reflexivity.
Qed.

Lemma noNl_headVar encoded v i : Forall noNl (sv_names v) -> noNl (headVar encoded v i).
Proof.
  intros H. unfold headVar. repeat apply noNl_app; auto using noNl_show; try now apply noNl_lit.
  - destruct (encoded && _); now apply noNl_lit.
  - destruct (Nat.lt_ge_cases i (length (sv_names v))) as [Hi|Hi].
    + rewrite Forall_forall in H. apply H. now apply nth_In.
    + rewrite nth_overflow by auto. intros a [].
Qed.

Lemma header_file encoded goals v : Forall noNl (sv_names v) ->
  file_lines (header encoded goals v) =
  (head1 encoded ++ ["# Num goals: " ++ showNat goals; "# Variable names:"]%string) ++
    map (headVar encoded v) (seq 0 (length (sv_types v))) ++ head2.
Proof.
  intros H. rewrite header_lines. apply file_lines_unlines. rewrite !Forall_app. repeat split.
  - destruct encoded; repeat (constructor; [now apply noNl_lit|]); constructor.
  - constructor; [apply noNl_app; [now apply noNl_lit|apply noNl_show]|]. constructor; [now apply noNl_lit|constructor].
  - apply Forall_forall. intros l Hl. apply in_map_iff in Hl. destruct Hl as (i & <- & _). now apply noNl_headVar.
  - repeat (constructor; [now apply noNl_lit|]); constructor.
Qed.

Lemma headVar_input c n types i : wf c ->
  types = varTypes c ++ repeat SymbolicStrategyCounterVar n ->
  inherits (nth i types NoneVariableType) PreInput || inherits (nth i types NoneVariableType) PostInput =
  Nat.ltb i (2 * nvars c) && negb (isOut c (Nat.div2 i)).
Proof.
  intros Hwf ->. pose proof (wf_kinds c Hwf) as HK. pose proof (nvars_spec c HK) as LT.
  destruct (Nat.ltb_spec i (2 * nvars c)) as [Hi|Hi].
  - rewrite app_nth1 by lia. cbn [andb].
    destruct (even_cases i) as [[k ->]|[k ->]].
    + rewrite Nat.div2_double. assert (Hk : k < nvars c) by lia. rewrite (isIn_spec c HK k Hk).
      apply (type_even c HK), inherits_post in Hk. destruct Hk as (_ & _ & _ & _ & -> & _). apply orb_false_r.
    + rewrite div2_double1. assert (Hk : k < nvars c) by lia. rewrite (type_odd c HK).
      rewrite <- (isIn_spec c HK k Hk). apply (type_even c HK), inherits_post in Hk. destruct Hk as (-> & _ & -> & _). reflexivity.
  - cbn [andb]. rewrite app_nth2 by lia.
    destruct (nth_in_or_default (i - length (varTypes c)) (repeat SymbolicStrategyCounterVar n) NoneVariableType) as [H| ->]; [|reflexivity].
    apply repeat_spec in H. now rewrite H.
Qed.
