(** * What --analyzeInterleaving reports *)

From Coq Require Import String Arith List Bool Lia.
From Verif Require Import BDD Loop Spec VarTypes Synth Sem FixBase SynthProofs Verdict Interleave InterleaveSpec InterleaveProofs InterleaveLoops.
Import ListNotations.
Local Open Scope list_scope.

Lemma setType_length i t l : length (setType i t l) = length l.
Proof. revert i; induction l as [|u l IH]; intros [|i]; cbn; auto. Qed.
Lemma setType_nth i t l j : i < length l -> nth j (setType i t l) NoneVariableType = if Nat.eqb j i then t else nth j l NoneVariableType.
Proof.
  revert i j; induction l as [|u l IH]; intros [|i] [|j]; cbn [length setType nth Nat.eqb]; intros H; auto; try lia.
  apply IH. lia.
Qed.

Lemma realizable_before_ext g B B' : (forall k, B k = B' k) -> realizable_before g B <-> realizable_before g B'.
Proof.
  intros E. split; intros (f & Hb & Hf); exists f; split; auto; intros h x x' k Hh HB; apply Hb; auto; [rewrite E|rewrite <- E]; auto.
Qed.

Section REPORT.
  Variable c : ctx.
  Hypothesis Hwf : wf c.
  Let Hk := wf_kinds c Hwf.
  Local Arguments isOut : simpl never.
  Local Notation g := (game_of c).

  Lemma typesB_ext B B' : (forall k, B k = B' k) -> typesB c B = typesB c B'.
  Proof. intros E. unfold typesB. apply map_ext. intros v. unfold tyOf. now rewrite E. Qed.

  Lemma types_start : map defaultType (varTypes c) = typesB c (fun _ => false).
  Proof.
    apply (nth_ext _ _ NoneVariableType NoneVariableType); [now rewrite map_length, length_typesB|].
    intros v L. rewrite map_length in L. rewrite (nth_typesB c Hwf).
    change (nth v (map defaultType (varTypes c)) (defaultType NoneVariableType) = tyOf c (fun _ => false) v). rewrite map_nth.
    rewrite (nvars_spec c Hk) in L. unfold defaultType. destruct (even_cases v) as [[k ->]|[k ->]]; rewrite ?tyOf_even, ?tyOf_odd.
    - pose proof (type_even c Hk k ltac:(lia)) as K. unfold isOut. destruct (nth (2 * k) (varTypes c) NoneVariableType); try discriminate; reflexivity.
    - pose proof (type_even c Hk k ltac:(lia)) as K. rewrite (type_odd c Hk). unfold isOut. destruct (nth (2 * k) (varTypes c) NoneVariableType); try discriminate; reflexivity.
  Qed.

  Lemma types_set B k tPre tPost (b : bool) : isOut c k = true ->
    (tPre, tPost) = (if b then (PreOutputBefore, PostOutputBefore) else (PreOutputAfter, PostOutputAfter)) ->
    setType (2 * k + 1) tPost (setType (2 * k) tPre (typesB c B)) = typesB c (fun i => if Nat.eqb i k then b else B i).
  Proof.
    intros O E. assert (L : k < nvars c).
    { destruct (Nat.lt_ge_cases k (nvars c)) as [L|L]; auto. rewrite (isOut_big c Hk) in O by auto. discriminate. }
    assert (LL : 2 * k + 1 < length (varTypes c)) by (rewrite (nvars_spec c Hk); lia).
    apply (nth_ext _ _ NoneVariableType NoneVariableType); [now rewrite !setType_length, !length_typesB|].
    intros v _. rewrite setType_nth by (rewrite setType_length, length_typesB; lia).
    rewrite setType_nth by (rewrite length_typesB; lia). rewrite !(nth_typesB c Hwf).
    destruct (even_cases v) as [[i ->]|[i ->]]; rewrite ?tyOf_even, ?tyOf_odd.
    - replace (2 * i =? 2 * k + 1) with false by (symmetry; apply Nat.eqb_neq; lia).
      destruct (Nat.eqb_spec i k) as [->|N].
      + rewrite Nat.eqb_refl, O. destruct b; now inversion E.
      + replace (2 * i =? 2 * k) with false by (symmetry; apply Nat.eqb_neq; lia). reflexivity.
    - replace (2 * i + 1 =? 2 * k) with false by (symmetry; apply Nat.eqb_neq; lia).
      destruct (Nat.eqb_spec i k) as [->|N].
      + rewrite Nat.eqb_refl, O. destruct b; now inversion E.
      + replace (2 * i + 1 =? 2 * k + 1) with false by (symmetry; apply Nat.eqb_neq; lia). reflexivity.
  Qed.

  (** The outputs accepted up to [n]. *)
  Definition greedy (n : nat) (B : nat -> bool) : Prop :=
    forall k, B k = true <-> (k < n /\ isOut c k = true /\ realizable_before g (add k (fun i => B i && Nat.ltb i k))).
  Definition isLast (n k : nat) : Prop := k < n /\ isOut c k = true /\ forall i, k < i < n -> isOut c i = false.

  Definition stOk (n : nat) (st : tryState) (B A : nat -> bool) : Prop :=
    greedy n B /\ realizable_before g B /\
    variableTypes st = typesB c B /\ variableTypesAll st = typesB c A /\
    (forall k, A k = true <-> B k = true \/ isLast n k) /\
    (((forall k, B k = false) /\ foundOne st = None) \/ ((exists k, B k = true) /\ foundOne st = Some true)).

  Lemma greedy_in n B : greedy n B -> forall k, B k = true -> isOut c k = true.
  Proof. intros G k H. now apply G in H. Qed.

  Lemma greedy_below n B : greedy n B -> forall k i, n <= k -> B i && (i <? k) = B i.
  Proof.
    intros G k i L. destruct (B i) eqn:E; auto. apply G in E. cbn [andb]. apply Nat.ltb_lt. lia.
  Qed.

  Lemma greedy_skip n B : greedy n B -> (isOut c n = true -> ~ realizable_before g (add n B)) -> greedy (S n) B.
  Proof.
    intros G N k. split.
    - intros H. apply G in H. intuition lia.
    - intros (L & O & R). destruct (Nat.eq_dec k n) as [->|D].
      + exfalso. apply N; auto. revert R. apply realizable_before_ext. intros i. unfold add. f_equal. symmetry. apply (greedy_below n B G); auto.
      + apply G. repeat split; auto. lia.
  Qed.

  Lemma greedy_add n B : greedy n B -> isOut c n = true -> realizable_before g (add n B) ->
    greedy (S n) (fun i => if Nat.eqb i n then true else B i).
  Proof.
    intros G O R k.
    assert (EX : forall m, m <= n -> forall i, (if i =? n then true else B i) && (i <? m) = B i && (i <? m)).
    { intros m L i. destruct (Nat.eqb_spec i n) as [->|]; auto. replace (n <? m) with false by (symmetry; apply Nat.ltb_ge; lia).
      now rewrite !andb_false_r. }
    destruct (Nat.eqb_spec k n) as [->|D].
    - split; auto. intros _. repeat split; auto. revert R. apply realizable_before_ext. intros i. unfold add. f_equal.
      rewrite (EX n) by lia. first [apply (greedy_below n B G); auto|symmetry; apply (greedy_below n B G); auto].
    - split.
      + intros H. pose proof H as H'. apply G in H'. destruct H' as (L & O' & R'). repeat split; auto.
        revert R'. apply realizable_before_ext. intros i. unfold add. f_equal. first [apply EX; lia|symmetry; apply EX; lia].
      + intros (L & O' & R'). apply G. repeat split; auto; [lia|]. revert R'. apply realizable_before_ext. intros i. unfold add. f_equal. first [apply EX; lia|symmetry; apply EX; lia].
  Qed.

  Lemma isLast_skip n k : isOut c n = false -> isLast (S n) k <-> isLast n k.
  Proof.
    intros O. unfold isLast. split; intros (L & Ok & H).
    - assert (k <> n) by congruence. repeat split; auto; [lia|]. intros i Hi. apply H. lia.
    - repeat split; auto. intros i Hi. destruct (Nat.eq_dec i n) as [->|]; auto. apply H. lia.
  Qed.
  Lemma isLast_out n k : isOut c n = true -> isLast (S n) k <-> k = n.
  Proof.
    intros O. unfold isLast. split.
    - intros (L & Ok & H). destruct (Nat.eq_dec k n); auto. rewrite H in O by lia. discriminate.
    - intros ->. repeat split; auto. intros i Hi. lia.
  Qed.

  (** One pair of BDD variables. *)
  Lemma try_pair n st B A : n < nvars c -> stOk n st B A ->
    exists st' B' A', tryAll c [2 * n; 2 * n + 1] st = Some st' /\ stOk (S n) st' B' A'.
  Proof.
    intros L (G & R & Ev & Ea & HA & HF).
    assert (ODD : forall st' A', variableTypesAll st' = typesB c A' -> tryBefore c st' (2 * n + 1) = Some st').
    { intros st' A' E. unfold tryBefore. rewrite E, (nth_typesB c Hwf).
      rewrite (inherits_tyOf c Hwf) by (cbn; auto). rewrite (type_odd c Hk).
      pose proof (inherits_post _ (type_even c Hk n L)) as K. destruct K as (_ & _ & _ & K & _). now rewrite K. }
    cbn [tryAll]. unfold tryBefore at 1. rewrite Ea, (nth_typesB c Hwf).
    rewrite (inherits_tyOf c Hwf) by (cbn; auto). fold (isOut c n). destruct (isOut c n) eqn:O.
    - rewrite Ev. rewrite (types_set B n PreOutputBefore PostOutputBefore true) by auto.
      set (B' := fun i => if i =? n then true else B i).
      assert (HB' : forall k, B' k = true -> isOut c k = true).
      { intros k. unfold B'. destruct (Nat.eqb_spec k n) as [->|]; auto. apply (greedy_in n B G). }
      assert (EB : forall k, B' k = add n B k) by (intros k; unfold B', add; now destruct (k =? n)).
      destruct (check_same c Hwf B' HB') as [[E HR]|[E HR]]; rewrite E; rewrite (realizable_before_ext _ _ _ EB) in HR.
      + set (st' := mkTry _ _ _). rewrite (ODD st' B') by reflexivity. exists st', B', B'. split; auto.
        split; [apply greedy_add; auto|]. split; [now apply (realizable_before_ext _ _ _ EB)|].
        split; [reflexivity|]. split; [reflexivity|]. split.
        * intros k. rewrite isLast_out by auto. split; auto. intros [H| ->]; auto. unfold B'. now rewrite Nat.eqb_refl.
        * right. split; auto. exists n. unfold B'. now rewrite Nat.eqb_refl.
      + set (st' := mkTry _ _ _). rewrite (ODD st' B') by reflexivity. exists st', B, B'. split; auto.
        split; [apply greedy_skip; auto|]. split; auto. split.
        { cbn [variableTypes st']. rewrite (types_set B' n PreOutputAfter PostOutputAfter false) by auto. apply typesB_ext. intros k. unfold B'.
          destruct (Nat.eqb_spec k n) as [->|]; auto. destruct (B n) eqn:EN; auto. apply G in EN. lia. }
        split; [reflexivity|]. split; [|exact HF].
        intros k. rewrite isLast_out by auto. unfold B'. destruct (Nat.eqb_spec k n) as [->|D]; [intuition|intuition].
    - rewrite (ODD st A) by auto. exists st, B, A. split; auto. split; [apply greedy_skip; auto; intros O2; congruence|].
      split; auto. split; auto. split; auto. split; [|exact HF]. intros k. rewrite isLast_skip by auto. apply HA.
  Qed.

  Lemma tryAll_app l1 l2 st : tryAll c (l1 ++ l2) st = match tryAll c l1 st with None => None | Some st => tryAll c l2 st end.
  Proof.
    revert st; induction l1 as [|i l1 IH]; intros st; cbn [tryAll app]; auto. destruct (tryBefore c st i); auto.
  Qed.

  Lemma try_spec n : n <= nvars c ->
    realizable_before g (fun _ => false) ->
    exists st B A, tryAll c (seq 0 (2 * n)) (mkTry (typesB c (fun _ => false)) (typesB c (fun _ => false)) None) = Some st /\ stOk n st B A.
  Proof.
    intros L R. induction n as [|n IH].
    - exists (mkTry (typesB c (fun _ => false)) (typesB c (fun _ => false)) None), (fun _ => false), (fun _ => false). split; [reflexivity|].
      split; [intros k; split; [discriminate|intros (H & _); lia]|]. split; auto. split; [reflexivity|]. split; [reflexivity|]. split; auto.
      intros k. split; [discriminate|]. intros [H|(H & _)]; [discriminate|lia].
    - destruct IH as (st & B & A & E & S1); [lia|]. destruct (try_pair n st B A) as (st' & B' & A' & E' & S2); auto.
      exists st', B', A'. split; auto. replace (2 * S n) with (2 * n + 2) by lia. rewrite seq_app, tryAll_app, E. cbn [seq plus].
      replace (S (2 * n)) with (2 * n + 1) by lia. exact E'.
  Qed.

  (** The names printed. *)
  Lemma names_spec A : (forall k, A k = true -> isOut c k = true) ->
    namesBefore c (typesB c A) = map (fun k => nth (2 * k) (varNames c) EmptyString) (filter A (seq 0 (nvars c))).
  Proof.
    intros HA. unfold namesBefore. rewrite length_typesB, (nvars_spec c Hk).
    assert (G : forall n, n <= nvars c -> filter (fun i => inherits (nth i (typesB c A) NoneVariableType) PreOutputBefore) (seq 0 (2 * n)) =
      map (fun k => 2 * k) (filter A (seq 0 n))).
    { induction n as [|n IH]; intros L; [reflexivity|]. replace (2 * S n) with (2 * n + 2) by lia. rewrite seq_app, filter_app, IH by lia.
      rewrite (seq_S n 0), filter_app, map_app. f_equal. cbn [seq plus filter]. replace (S (2 * n)) with (2 * n + 1) by lia.
      rewrite !(nth_typesB c Hwf), tyOf_even, tyOf_odd. destruct (isOut c n) eqn:O.
      - destruct (A n); reflexivity.
      - destruct (in_kind c Hwf n ltac:(lia) O PreOutputBefore) as [E1 E2]; [cbn; auto|]. rewrite E1, E2.
        destruct (A n) eqn:EA; [apply HA in EA; congruence|reflexivity]. }
    rewrite G, map_map by auto. reflexivity.
  Qed.

  Lemma before_none f : before (fun _ => false) f.
  Proof. intros h x x' k _ H. discriminate. Qed.
  Lemma realizable_none : realizable_before g (fun _ => false) <-> realizable g.
  Proof. split; [intros (f & _ & H)|intros (f & H)]; exists f; auto using before_none. Qed.

  Lemma report_spec :
    (interleave c = Some NotRealizable /\ ~ realizable g) \/
    (realizable g /\ exists B A : nat -> bool,
       greedy (nvars c) B /\ realizable_before g B /\
       (forall k, A k = true <-> B k = true \/ isLast (nvars c) k) /\
       (((forall k, B k = false) /\ interleave c = Some Uninitialised) \/
        ((exists k, B k = true) /\
         interleave c = Some (StaysRealizable (map (fun k => nth (2 * k) (varNames c) EmptyString) (filter A (seq 0 (nvars c)))))))).
  Proof.
    unfold interleave. rewrite types_start.
    destruct (check_same c Hwf (fun _ => false)) as [[E HR]|[E HR]]; [discriminate| |]; rewrite E.
    - right. split; [now apply realizable_none|]. rewrite length_typesB, (nvars_spec c Hk).
      destruct (try_spec (nvars c) (le_n _) HR) as (st & B & A & E' & G & R & Ev & Ea & HA & HF). rewrite E'.
      exists B, A. split; auto. split; auto. split; auto.
      destruct HF as [[H1 H2]|[H1 H2]]; rewrite H2; [left|right]; split; auto. do 2 f_equal. rewrite Ea. apply names_spec.
      intros k H. apply HA in H. destruct H as [H|H]; [now apply (greedy_in _ _ G)|apply H].
    - left. split; auto. now rewrite <- realizable_none.
  Qed.
End REPORT.
