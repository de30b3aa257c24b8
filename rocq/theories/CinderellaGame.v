(** * Proofs: the game of the files *)

From Coq Require Import String Ascii List Bool Arith NArith ZArith Lia.
From Verif Require Import FormulaSpec Spec FileSpec StructuredSpec StructGrammar StructFileSpec StuckSpec StructGameProofs CinderellaSpec CinderellaProofs CinderellaFile.
From Verif Require Import Explicit.
Import ListNotations.
Local Open Scope string_scope.
Local Open Scope list_scope.

Definition val (v : value) : Z := match v with VInt z => z | VBool _ => 0%Z end.
Definition nats (vs : list value) : list nat := map (fun v => Z.to_nat (val v)) vs.
Definition X (u : position) (i : nat) : Z := val (nth i (fst u) (VInt 0)).
Definition Y (u : position) (i : nat) : Z := val (nth i (snd u) (VInt 0)).

Lemma find_at : forall ds vs k x mn mx v, NoDup (map nameOfDecl ds) -> (forall d, In d ds -> exists x mn mx, d = DInt x mn mx) -> nth_error ds k = Some (DInt x mn mx) -> nth_error vs k = Some v ->
  find (fun dv : declaration * value => match fst dv with DInt y _ _ => String.eqb y x | DBool _ => false end) (combine ds vs) = Some (DInt x mn mx, v).
Proof.
  induction ds as [|d ds IH]; intros vs k x mn mx v ND AI H1 H2; [destruct k; discriminate|]. destruct vs as [|w vs]; [destruct k; discriminate|]. inversion ND as [|? ? N1 N2]; subst.
  cbn [combine find fst]. destruct k as [|k]; cbn [nth_error] in *.
  - injection H1 as ->. injection H2 as ->. now rewrite String.eqb_refl.
  - destruct (AI d (or_introl eq_refl)) as (y & a & b & ->). destruct (String.eqb_spec y x) as [->|_].
    + elim N1. apply nth_error_In in H1. apply (in_map nameOfDecl) in H1. exact H1.
    + apply (IH vs k); auto. intros e He. apply AI. now right.
Qed.
Lemma Forall2_at {A B} (P : A -> B -> Prop) l m : Forall2 P l m -> forall k a, nth_error l k = Some a -> exists b, nth_error m k = Some b /\ P a b.
Proof. induction 1 as [|x y l m H F IH]; intros k a E; [destruct k; discriminate|]. destruct k as [|k]; cbn in E |- *; [injection E as <-; eauto|now apply IH]. Qed.
Lemma Forall2_length {A B} (P : A -> B -> Prop) l m : Forall2 P l m -> length l = length m.
Proof. induction 1; cbn; congruence. Qed.
Lemma nth_error_seq n i : i < n -> nth_error (seq 0 n) i = Some i.
Proof. intros H. rewrite (nth_error_nth' _ 0) by now rewrite seq_length. now rewrite seq_nth. Qed.
Lemma nth_map_seq {A} (g : nat -> A) d n i : i < n -> nth i (map g (seq 0 n)) d = g i.
Proof. intros H. apply nth_error_nth. rewrite nth_error_map, nth_error_seq by exact H. reflexivity. Qed.
Definition zsum (l : list Z) : Z := fold_right Z.add 0%Z l.

Section GAME.
  Variables n c cap p : nat.
  Hypothesis Hn : 0 < n.
  Hypothesis Hc : 0 < c.
  Notation ins := (ins n p).
  Notation outs := (outs n cap).
  Notation fine := (okPos ins outs).
  Notation at_ := (integerAt ins outs).

  Lemma ins_at i : i < n -> nth_error ins i = Some (DInt (xn i) 0 (Z.of_nat p)).
  Proof. intros H. unfold CinderellaFile.ins. rewrite nth_error_map, nth_error_seq by exact H. reflexivity. Qed.
  Lemma outs_at i : i < n -> nth_error outs i = Some (DInt (yn i) 0 (Z.of_nat cap)).
  Proof. intros H. unfold CinderellaFile.outs. rewrite nth_error_app1 by now rewrite map_length, seq_length. rewrite nth_error_map, nth_error_seq by exact H. reflexivity. Qed.
  Lemma outs_e : nth_error outs n = Some (DInt "e" 0 (Z.of_nat n - 1)).
  Proof. unfold CinderellaFile.outs. rewrite nth_error_app2; rewrite map_length, seq_length; [|lia]. now rewrite Nat.sub_diag. Qed.
  Lemma ins_length : length ins = n.
  Proof. unfold CinderellaFile.ins. now rewrite map_length, seq_length. Qed.
  Lemma outs_length : length outs = S n.
  Proof. unfold CinderellaFile.outs. rewrite app_length, map_length, seq_length. cbn. lia. Qed.

  Lemma value_in u i : Forall2 fits ins (fst u) -> i < n -> nth_error (fst u) i = Some (VInt (X u i)) /\ (0 <= X u i <= Z.of_nat p)%Z.
  Proof.
    intros F H. destruct (Forall2_at _ _ _ F i _ (ins_at i H)) as (v & E & V). unfold X. rewrite (nth_error_nth _ _ _ E). destruct v as [b|z]; [destruct V|]. split; [exact E|exact V].
  Qed.
  Lemma value_out u i : Forall2 fits outs (snd u) -> i < n -> nth_error (snd u) i = Some (VInt (Y u i)) /\ (0 <= Y u i <= Z.of_nat cap)%Z.
  Proof.
    intros F H. destruct (Forall2_at _ _ _ F i _ (outs_at i H)) as (v & E & V). unfold Y. rewrite (nth_error_nth _ _ _ E). destruct v as [b|z]; [destruct V|]. split; [exact E|exact V].
  Qed.
  Lemma value_e u : Forall2 fits outs (snd u) -> nth_error (snd u) n = Some (VInt (Y u n)) /\ (0 <= Y u n < Z.of_nat n)%Z.
  Proof.
    intros F. destruct (Forall2_at _ _ _ F n _ outs_e) as (v & E & V). unfold Y. rewrite (nth_error_nth _ _ _ E). destruct v as [b|z]; [destruct V|]. split; [exact E|]. cbn in V |- *. lia.
  Qed.
  Lemma lengths u : fine u -> length (fst u) = n /\ length (snd u) = S n.
  Proof. intros [F G]. apply Forall2_length in F, G. rewrite ins_length in F. rewrite outs_length in G. lia. Qed.

  Lemma at_in u i : fine u -> i < n -> at_ u (xn i) = X u i.
  Proof.
    intros O H. destruct (lengths u O) as [L1 L2]. destruct O as [F G]. destruct (value_in u i F H) as [E _]. unfold integerAt.
    rewrite (find_at _ _ i (xn i) 0 (Z.of_nat p) (VInt (X u i))); [reflexivity|apply names_distinct|apply declared_ints| |].
    - rewrite nth_error_app1 by (rewrite ins_length; lia). now apply ins_at.
    - rewrite nth_error_app1 by lia. exact E.
  Qed.
  Lemma at_out u i : fine u -> i < n -> at_ u (yn i) = Y u i.
  Proof.
    intros O H. destruct (lengths u O) as [L1 L2]. destruct O as [F G]. destruct (value_out u i G H) as [E _]. unfold integerAt.
    rewrite (find_at _ _ (n + i) (yn i) 0 (Z.of_nat cap) (VInt (Y u i))); [reflexivity|apply names_distinct|apply declared_ints| |].
    - rewrite nth_error_app2 by (rewrite ins_length; lia). rewrite ins_length. replace (n + i - n) with i by lia. now apply outs_at.
    - rewrite nth_error_app2 by lia. rewrite L1. replace (n + i - n) with i by lia. exact E.
  Qed.
  Lemma at_e u : fine u -> at_ u "e" = Y u n.
  Proof.
    intros O. destruct (lengths u O) as [L1 L2]. destruct O as [F G]. destruct (value_e u G) as [E _]. unfold integerAt.
    rewrite (find_at _ _ (n + n) "e" 0 (Z.of_nat n - 1) (VInt (Y u n))); [reflexivity|apply names_distinct|apply declared_ints| |].
    - rewrite nth_error_app2 by (rewrite ins_length; lia). rewrite ins_length. replace (n + n - n) with n by lia. apply outs_e.
    - rewrite nth_error_app2 by lia. rewrite L1. replace (n + n - n) with n by lia. exact E.
  Qed.

  (** ** The meaning of the formulas *)

  Notation means := (meaning n cap p).
  Lemma meaning_init u v i : fine u -> i < n -> means (SCalc (NumID (xn i)) CEq (kz 0)) u v = (X u i =? 0)%Z /\ means (SCalc (NumID (yn i)) CEq (kz 0)) u v = (Y u i =? 0)%Z.
  Proof.
    intros O H. unfold meaning, xn, yn. unfold kz. cbn [truth numValue]. rewrite !unprime_name by reflexivity. cbn [orb]. fold (xn i) (yn i). now rewrite at_in, at_out.
  Qed.
  Lemma sum_value u v D l : fine v -> (forall i, In i l -> i < n) -> numValue D (fun next x => at_ (if next then v else u) x) false (sumF l) = zsum (map (X v) l).
  Proof.
    intros O. induction l as [|i l IH]; intros H; [reflexivity|].
    assert (V : numValue D (fun next x => at_ (if next then v else u) x) false (NumID (String "x" (showNat i ++ "'"))) = X v i).
    { cbn [numValue]. rewrite unprime_name' by reflexivity. cbn [orb]. fold (xn i). apply at_in; auto. apply H. now left. }
    destruct l as [|j l]; [cbn [sumF map zsum fold_right]; rewrite V; lia|].
    change (sumF (i :: j :: l)) with (Add (NumID (String "x" (showNat i ++ "'"))) (sumF (j :: l))). cbn [numValue] in *. rewrite V, IH by (intros k Hk; apply H; now right). reflexivity.
  Qed.
  Lemma sum_nats u : fine u -> zsum (map (X u) (seq 0 n)) = Z.of_nat (list_sum (nats (fst u))).
  Proof.
    intros O. destruct (lengths u O) as [L _]. destruct O as [F _]. unfold X, nats. destruct u as [a b]. cbn [fst] in *. rewrite <- L. clear L.
    assert (P : Forall (fun v => (0 <= val v)%Z) a).
    { apply Forall_forall. intros v Hv. apply In_nth_error in Hv. destruct Hv as (k & Hk). assert (k < n) by (rewrite <- ins_length, (Forall2_length _ _ _ F); apply nth_error_Some; congruence).
      destruct (value_in (a, b) k F H) as [E V]. cbn [fst] in E. rewrite E in Hk. injection Hk as <-. cbn. lia. }
    clear F. replace (map (fun i => val (nth i a (VInt 0))) (seq 0 (length a))) with (map val a).
    - induction P as [|v a H P IH]; [reflexivity|]. cbn [map zsum fold_right list_sum]. unfold zsum in IH. rewrite IH. unfold list_sum. cbn [fold_right]. lia.
    - clear P. induction a as [|v a IH]; [reflexivity|]. cbn [map length seq nth]. f_equal. rewrite <- seq_shift, map_map. exact IH.
  Qed.
  Lemma meaning_restriction u v : fine v -> means (SCalc (sumF (seq 0 n)) CLe (kz p)) u v = (list_sum (nats (fst v)) <=? p)%nat.
  Proof.
    intros O. unfold meaning. cbn [truth kz]. rewrite (sum_value u v); auto; [|intros i Hi; apply in_seq in Hi; lia]. rewrite sum_nats by exact O. cbn [numValue compareZ].
    unfold kz. cbn [numValue]. destruct (Nat.leb_spec (list_sum (nats (fst v))) p); [apply Z.leb_le; lia|apply Z.leb_gt; lia].
  Qed.
  Lemma emptied_iff e i : e < n -> i < n -> isEmptied n c e i = true <-> (e <= i /\ i < e + c) \/ i + n <= e + (c - 1).
  Proof.
    intros He Hi. unfold isEmptied. rewrite existsb_exists. split.
    - intros (d & Hd & E). apply in_seq in Hd. apply Nat.eqb_eq in E. pose proof (Nat.div_mod (e + d) n). set (k := (e + d) / n) in *.
      destruct k as [|k]; [lia|]. nia.
    - intros H. exists (if (e <=? i)%nat then i - e else i + n - e). destruct (Nat.leb_spec e i) as [L|L].
      + split; [apply in_seq; lia|]. apply Nat.eqb_eq. replace (e + (i - e)) with i by lia. now apply Nat.mod_small.
      + split; [apply in_seq; lia|]. apply Nat.eqb_eq. replace (e + (i + n - e)) with (i + 1 * n) by lia. rewrite Nat.mod_add by lia. now apply Nat.mod_small.
  Qed.
  Lemma meaning_emptied u v i : fine u -> i < n -> means (emptiedF n c i) u v = isEmptied n c (Z.to_nat (Y u n)) i.
  Proof.
    intros O H. destruct (value_e u (proj2 O)) as [_ V]. unfold meaning, emptiedF, kz. cbn [truth numValue compareZ]. change (unprime "e") with ("e", false). cbn [orb]. rewrite at_e by exact O.
    apply eq_true_iff_eq. rewrite emptied_iff by lia. rewrite orb_true_iff, andb_true_iff, !Z.leb_le, Z.ltb_lt. lia.
  Qed.
  Lemma meaning_step u v i : fine u -> fine v -> i < n ->
    means (SImp (SUnary ONot (emptiedF n c i)) (SCalc (NumID (yn i ++ "'")) CEq (Add (NumID (yn i)) (NumID (xn i ++ "'"))))) u v = implb (negb (isEmptied n c (Z.to_nat (Y u n)) i)) (Y v i =? Y u i + X v i)%Z /\
    means (SImp (emptiedF n c i) (SCalc (NumID (yn i ++ "'")) CEq (NumID (xn i ++ "'")))) u v = implb (isEmptied n c (Z.to_nat (Y u n)) i) (Y v i =? X v i)%Z.
  Proof.
    intros O O' H. rewrite <- (meaning_emptied u v i O H). unfold meaning, xn, yn. cbn [append]. cbn [truth numValue]. rewrite !unprime_name', !unprime_name by reflexivity. cbn [orb compareZ]. fold (xn i) (yn i).
    rewrite (at_out u), (at_out v), (at_in v) by auto. split; reflexivity.
  Qed.

  Definition m (s : section) : list (position -> position -> bool) := map means (formulasIn n c p s).
  Lemma all_map {A} (f : A -> bool) l : forallb f l = true <-> forall x, In x l -> f x = true.
  Proof. apply forallb_forall. Qed.
  Lemma env_init u : fine u -> allOf m SEnvInit u u = true <-> forall i, i < n -> X u i = 0%Z.
  Proof.
    intros O. unfold allOf, m. cbn [formulasIn]. rewrite map_map, all_map. split.
    - intros H i Hi. destruct (meaning_init u u i O Hi) as [E _]. apply Z.eqb_eq. rewrite <- E. apply (H (means _)). apply in_map_iff. exists i. split; [reflexivity|apply in_seq; lia].
    - intros H f Hf. apply in_map_iff in Hf. destruct Hf as (i & <- & Hi). apply in_seq in Hi. destruct (meaning_init u u i O) as [-> _]; [lia|]. apply Z.eqb_eq, H. lia.
  Qed.
  Lemma sys_init u : fine u -> allOf m SSysInit u u = true <-> forall i, i < n -> Y u i = 0%Z.
  Proof.
    intros O. unfold allOf, m. cbn [formulasIn]. rewrite map_map, all_map. split.
    - intros H i Hi. destruct (meaning_init u u i O Hi) as [_ E]. apply Z.eqb_eq. rewrite <- E. apply (H (means _)). apply in_map_iff. exists i. split; [reflexivity|apply in_seq; lia].
    - intros H f Hf. apply in_map_iff in Hf. destruct Hf as (i & <- & Hi). apply in_seq in Hi. destruct (meaning_init u u i O) as [_ ->]; [lia|]. apply Z.eqb_eq, H. lia.
  Qed.
  Lemma env_trans u v : fine v -> allOf m SEnvTrans u v = (list_sum (nats (fst v)) <=? p)%nat.
  Proof. intros O. unfold allOf, m. cbn [formulasIn map forallb]. now rewrite meaning_restriction, andb_true_r. Qed.
  Lemma sys_trans u v : fine u -> fine v -> allOf m SSysTrans u v = true <-> forall i, i < n -> (Y v i = (if isEmptied n c (Z.to_nat (Y u n)) i then 0 else Y u i) + X v i)%Z.
  Proof.
    intros O O'. unfold allOf, m. cbn [formulasIn]. rewrite map_app, !map_map, all_map. split.
    - intros H i Hi. destruct (meaning_step u v i O O' Hi) as [E1 E2].
      assert (H1 : implb (negb (isEmptied n c (Z.to_nat (Y u n)) i)) (Y v i =? Y u i + X v i)%Z = true) by (rewrite <- E1; apply (H (means _)); apply in_or_app; left; apply in_map_iff; exists i; split; [reflexivity|apply in_seq; lia]).
      assert (H2 : implb (isEmptied n c (Z.to_nat (Y u n)) i) (Y v i =? X v i)%Z = true) by (rewrite <- E2; apply (H (means _)); apply in_or_app; right; apply in_map_iff; exists i; split; [reflexivity|apply in_seq; lia]).
      destruct (isEmptied _ _ _ _); cbn in *; [apply Z.eqb_eq in H2|apply Z.eqb_eq in H1]; lia.
    - intros H f Hf. apply in_app_or in Hf. destruct Hf as [Hf|Hf]; apply in_map_iff in Hf; destruct Hf as (i & <- & Hi); apply in_seq in Hi; destruct (meaning_step u v i O O') as [E1 E2]; try lia.
      + rewrite E1. specialize (H i). destruct (isEmptied _ _ _ _); cbn in *; [reflexivity|]. apply Z.eqb_eq. lia.
      + rewrite E2. specialize (H i). destruct (isEmptied _ _ _ _); cbn in *; [|reflexivity]. apply Z.eqb_eq. lia.
  Qed.

  (** ** From a strategy of Cinderella to one of the system *)

  Section TO.
    Variable strategy : cinderella.
    Hypothesis Hs : forall h, strategy h < n.
    Hypothesis Wins : forall h, Forall (allowed n p) h -> forall i, i < n -> level n c strategy h i <= cap.
    Definition outputs (h : list pour) : list value :=
      map (fun i => VInt (Z.min (Z.of_nat cap) (Z.of_nat (level n c strategy h i)))) (seq 0 n) ++ [VInt (Z.of_nat (strategy h))].
    Definition answer (h : list position) (x : list value) : list value := outputs (removelast (nats x :: map (fun u => nats (fst u)) h)).
    Lemma answer_fits : fitting outs answer.
    Proof.
      intros h x. unfold answer. match goal with |- context [outputs ?k] => generalize k end. intros l. unfold outputs. apply Forall2_app; [|constructor; [|constructor]].
      - apply Forall2_seq. intros i _. cbn [fits]. lia.
      - cbn [fits]. specialize (Hs l). lia.
    Qed.
    Variable x : nat -> list value.
    Hypothesis Hx : fittingInputs ins x.
    Notation pi := (intPlay answer x).
    Fixpoint poured (k : nat) : list pour := match k with O => [] | S k => nats (x (S k)) :: poured k end.
    Lemma history_poured k : map (fun u => nats (fst u)) (intHistory answer x k) = poured k ++ [nats (x 0)].
    Proof. induction k as [|k IH]; [reflexivity|]. cbn [intHistory map fst poured app]. now rewrite IH. Qed.
    Lemma play_at k : pi k = (x k, outputs (poured k)).
    Proof.
      unfold intPlay. destruct k as [|k]; [reflexivity|]. cbn [intHistory hd]. unfold answer at 1. rewrite history_poured. rewrite app_comm_cons, removelast_app by discriminate. cbn [removelast]. now rewrite app_nil_r.
    Qed.
    Lemma play_fine k : fine (pi k).
    Proof. rewrite play_at. split; [apply Hx|]. cbn [snd]. pose proof (answer_fits (intHistory answer x k) []) as F. destruct k as [|k]; [apply (answer_fits [] [])|].
      pose proof (answer_fits (intHistory answer x k) (x (S k))) as G. unfold answer in G at 1. rewrite history_poured in G. rewrite app_comm_cons, removelast_app in G by discriminate. cbn [removelast] in G. rewrite app_nil_r in G. exact G.
    Qed.
    Lemma Y_at k i : i < n -> Y (pi k) i = Z.min (Z.of_nat cap) (Z.of_nat (level n c strategy (poured k) i)).
    Proof.
      intros H. rewrite play_at. unfold Y. cbn [snd]. unfold outputs. rewrite app_nth1 by (rewrite map_length, seq_length; lia).
      now rewrite nth_map_seq by exact H.
    Qed.
    Lemma E_at k : Y (pi k) n = Z.of_nat (strategy (poured k)).
    Proof. rewrite play_at. unfold Y. cbn [snd]. unfold outputs. rewrite app_nth2; rewrite map_length, seq_length; [|lia]. now rewrite Nat.sub_diag. Qed.
    Lemma X_at k i : i < n -> X (pi k) i = Z.of_nat (nth i (nats (x k)) 0).
    Proof.
      intros H. destruct (value_in (pi k) i) as [E V]; [apply play_fine|exact H|]. rewrite play_at in E. cbn [fst] in E. unfold nats.
      rewrite (nth_indep _ 0 (Z.to_nat (val (VInt 0)))) by (rewrite map_length; apply nth_error_Some; congruence). rewrite (map_nth (fun v => Z.to_nat (val v))). rewrite (nth_error_nth _ _ _ E). cbn [val]. rewrite play_at in V |- *. lia.
    Qed.
    Lemma poured_allowed k : (forall j, j < k -> allOf m SEnvTrans (pi j) (pi (S j)) = true) -> Forall (allowed n p) (poured k).
    Proof.
      induction k as [|k IH]; intros H; constructor; [|apply IH; intros j Hj; apply H; lia]. split.
      - unfold nats. rewrite map_length, <- (Forall2_length _ _ _ (Hx (S k))). apply ins_length.
      - specialize (H k (Nat.lt_succ_diag_r k)). rewrite env_trans in H by apply play_fine. apply Nat.leb_le in H. rewrite play_at in H. exact H.
    Qed.
    Lemma answer_wins : intObjective m pi.
    Proof.
      intros _. split; [|split].
      - apply sys_init; [apply play_fine|]. intros i Hi. rewrite Y_at by exact Hi. cbn [poured level]. lia.
      - intros k Hk. apply sys_trans; [apply play_fine..|]. intros i Hi. rewrite E_at, Nat2Z.id, !Y_at, X_at by exact Hi.
        assert (F : Forall (allowed n p) (poured (S k))) by (apply poured_allowed; intros j Hj; apply Hk; lia). assert (F' : Forall (allowed n p) (poured k)) by (inversion F; assumption).
        pose proof (Wins _ F i Hi) as W. pose proof (Wins _ F' i Hi) as W'. rewrite !Z.min_r by lia. cbn [poured level] in *. destruct (isEmptied _ _ _ _); lia.
      - intros _ _ d [].
    Qed.
  End TO.

  (** ** From a strategy of the system to one of Cinderella *)

  Section FROM.
    Variable f : intStrategy.
    Hypothesis Hf : fitting outs f.
    Hypothesis Wins : forall x, fittingInputs ins x -> intObjective m (intPlay f x).
    Definition zeros : list value := map (fun _ => VInt 0) (seq 0 n).
    Definition vals (w : pour) : list value := map (fun k => VInt (Z.of_nat k)) w.
    Fixpoint visited (h : list pour) : list position :=
      match h with
      | [] => [(zeros, f [] zeros)]
      | w :: h => let H := visited h in (vals w, f H (vals w)) :: H
      end.
    Definition now_ (h : list pour) : position := hd ([], []) (visited h).
    Definition choose (h : list pour) : nat := Z.to_nat (Y (now_ h) n).
    Lemma now_out h : Forall2 fits outs (snd (now_ h)).
    Proof. unfold now_. destruct h; apply Hf. Qed.
    Lemma choose_range h : choose h < n.
    Proof. destruct (value_e (now_ h) (now_out h)) as [_ V]. unfold choose. lia. Qed.

    Definition inputs (l : list pour) (k : nat) : list value := match k with O => zeros | S k => vals (nth k l (repeat 0 n)) end.
    Lemma inputs_history h : forall t, intHistory f (inputs (rev h ++ t)) (length h) = visited h.
    Proof.
      induction h as [|w h IH]; intros t; [reflexivity|]. cbn [length intHistory visited rev]. rewrite <- app_assoc, IH. cbn [inputs app].
      rewrite app_nth2; rewrite rev_length; [|lia]. rewrite Nat.sub_diag. reflexivity.
    Qed.
    Lemma le_sum a l : In a l -> a <= list_sum l.
    Proof. induction l as [|b l IH]; [intros []|]. unfold list_sum in *. cbn. intros [<-|H]; [lia|]. apply IH in H. lia. Qed.
    Lemma vals_fit w : allowed n p w -> Forall2 fits ins (vals w).
    Proof.
      intros [L S]. unfold CinderellaFile.ins, vals. assert (B : forall k, In k w -> k <= p) by (intros k Hk; pose proof (le_sum k w Hk); lia). rewrite <- L. clear L S. generalize 0 at 1.
      induction w as [|k w IH]; intros o; cbn; constructor; [cbn; specialize (B k (or_introl eq_refl)); lia|]. apply IH. intros j Hj. apply B. now right.
    Qed.
    Lemma sum_zeros k : list_sum (repeat 0 k) = 0.
    Proof. induction k; [reflexivity|exact IHk]. Qed.
    Lemma zeros_allowed : allowed n p (repeat 0 n).
    Proof. split; [apply repeat_length|]. rewrite sum_zeros. lia. Qed.
    Lemma zeros_fit : Forall2 fits ins zeros.
    Proof. apply Forall2_seq. intros i _. cbn. lia. Qed.
    Lemma inputs_fit l : Forall (allowed n p) l -> fittingInputs ins (inputs l).
    Proof.
      intros F [|k]; cbn [inputs]; [apply zeros_fit|]. apply vals_fit. destruct (Nat.lt_ge_cases k (length l)) as [L|L]; [|rewrite nth_overflow by exact L; apply zeros_allowed].
      rewrite Forall_forall in F. apply F. now apply nth_In.
    Qed.
    Lemma nats_vals w : nats (vals w) = w.
    Proof. unfold nats, vals. rewrite map_map. rewrite <- (map_id w) at 2. apply map_ext. intros k. cbn. lia. Qed.
    Lemma X_vals w o i : X (vals w, o) i = Z.of_nat (nth i w 0).
    Proof. unfold X, vals. cbn [fst]. change (VInt 0) with ((fun k => VInt (Z.of_nat k)) 0). rewrite map_nth. reflexivity. Qed.
    Lemma level_at h : Forall (allowed n p) h -> forall i, i < n -> Y (now_ h) i = Z.of_nat (level n c choose h i).
    Proof.
      intros F. pose proof (inputs_fit (rev h) (Forall_rev F)) as Fit. pose proof (Wins _ Fit) as W. set (x := inputs (rev h)) in *.
      assert (Fine : forall k, fine (intPlay f x k)) by (intros k; unfold intPlay; destruct k; cbn [intHistory hd]; (split; [apply Fit|apply Hf])).
      assert (I0 : allOf m SEnvInit (intPlay f x 0) (intPlay f x 0) = true).
      { apply env_init; [apply Fine|]. intros i Hi. unfold X, x, intPlay. cbn [intHistory hd fst inputs]. unfold zeros. now rewrite nth_map_seq by exact Hi. }
      destruct (W I0) as (S0 & S1 & _).
      assert (T : forall k, allOf m SEnvTrans (intPlay f x k) (intPlay f x (S k)) = true).
      { intros k. rewrite env_trans by apply Fine. apply Nat.leb_le. unfold intPlay, x. cbn [intHistory hd fst inputs]. rewrite nats_vals.
        destruct (Nat.lt_ge_cases k (length (rev h))) as [L|L]; [|rewrite nth_overflow by exact L; apply zeros_allowed].
        pose proof (Forall_rev F) as G. rewrite Forall_forall in G. destruct (G (nth k (rev h) (repeat 0 n))) as [_ G']; [now apply nth_In|exact G']. }
      assert (K : forall t h', h = t ++ h' -> forall i, i < n -> Y (now_ h') i = Z.of_nat (level n c choose h' i)).
      { assert (P : forall t h', h = t ++ h' -> intPlay f x (length h') = now_ h').
        { intros t h' E. unfold intPlay, x, now_. rewrite E, rev_app_distr, inputs_history. reflexivity. }
        intros t h'. revert t. induction h' as [|w h' IH]; intros t E i Hi.
        - rewrite <- (P t [] E). cbn [length level]. pose proof (proj1 (sys_init _ (Fine 0)) S0 i Hi) as Z0. now rewrite Z0.
        - assert (E' : h = (t ++ [w]) ++ h') by (rewrite <- app_assoc; exact E). specialize (IH _ E').
          pose proof (proj1 (sys_trans _ _ (Fine (length h')) (Fine (S (length h')))) (S1 (length h') (fun k _ => T k)) i Hi) as Z1.
          rewrite (P _ h' E') in Z1. change (S (length h')) with (length (w :: h')) in Z1. rewrite (P t (w :: h') E) in Z1. rewrite Z1. cbn [level]. fold (choose h').
          rewrite IH by exact Hi. unfold now_ at 1. cbn [visited hd]. rewrite X_vals. destruct (isEmptied _ _ _ _); lia. }
      apply (K [] h). reflexivity.
    Qed.
    Lemma choose_wins : cinderellaWins n c cap p.
    Proof.
      exists choose. split; [apply choose_range|]. intros h F i Hi. pose proof (level_at h F i Hi) as L. destruct (value_out (now_ h) i (now_out h) Hi) as [_ V]. lia.
    Qed.
  End FROM.

  Lemma realizable_iff : intRealizable ins outs m <-> cinderellaWins n c cap p.
  Proof.
    split.
    - intros (f & Hf & W). exact (choose_wins f Hf W).
    - intros (s & Hs & W). exists (answer s). split; [now apply answer_fits|]. intros x Hx. now apply answer_wins.
  Qed.
End GAME.
