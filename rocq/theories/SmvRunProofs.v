(** * Proofs: the traces of the written file are the behaviours of the automaton *)

From Coq Require Import String Ascii List Bool Arith NArith ZArith Lia.
From Verif Require Import FormulaSpec FileSpec Spec AutSpec Explicit Parser Structured StructFile Decoder Graph GraphProofs SmvSpec Smv SmvReadProofs.
Import ListNotations.
Local Open Scope string_scope.

(** ** Lists *)

Lemma pyMapM_ret {A B} (f : A -> pyres B) g l : (forall a, In a l -> f a = Ret (g a)) -> pyMapM f l = Ret (map g l).
Proof. induction l as [|a l IH]; intros H; [reflexivity|]. cbn [pyMapM map]. rewrite H by now left. cbn [pybind]. rewrite IH by (intros; apply H; now right). reflexivity. Qed.
Lemma find_map {A B} (P : B -> bool) (g : A -> B) l : find P (map g l) = option_map g (find (fun a => P (g a)) l).
Proof. induction l as [|a l IH]; [reflexivity|]. cbn. now destruct (P (g a)). Qed.
Lemma find_app {A} (P : A -> bool) a b : find P (a ++ b) = match find P a with Some x => Some x | None => find P b end.
Proof. induction a as [|x a IH]; [reflexivity|]. cbn. now destruct (P x). Qed.
Lemma find_flat_none {A} (P : A -> bool) (F : nat -> list A) l : (forall i, In i l -> find P (F i) = None) -> find P (flat_map F l) = None.
Proof. induction l as [|i l IH]; intros H; [reflexivity|]. cbn [flat_map]. rewrite find_app, H by now left. apply IH. intros; apply H. now right. Qed.
Lemma find_flat {A} (P : A -> bool) (F : nat -> list A) i0 l : (forall i, In i l -> i <> i0 -> find P (F i) = None) -> In i0 l -> find P (flat_map F l) = find P (F i0).
Proof.
  induction l as [|i l IH]; intros H I; [destruct I|]. cbn [flat_map]. rewrite find_app. destruct (Nat.eq_dec i i0) as [->|N].
  - destruct (find P (F i0)) eqn:E; [reflexivity|]. destruct (in_dec Nat.eq_dec i0 l) as [J|J].
    + apply IH; auto. intros; apply H; auto. now right.
    + apply find_flat_none. intros i J'. apply H; [now right|]. congruence.
  - rewrite H by (auto; now left). apply IH; [intros; apply H; auto; now right|]. destruct I as [I|I]; [congruence|exact I].
Qed.
Lemma find_ext {A} (P Q : A -> bool) l : (forall a, In a l -> P a = Q a) -> find P l = find Q l.
Proof. induction l as [|a l IH]; intros H; [reflexivity|]. cbn. rewrite H by now left. rewrite IH by (intros; apply H; now right). reflexivity. Qed.
Lemma selected_app {V} r n (a b : list (cond * list V)) : selected r n (a ++ b) = match find (fun c => condHolds r n (fst c)) a with Some c => snd c | None => selected r n b end.
Proof. induction a as [|[c vs] a IH]; [reflexivity|]. cbn. now destruct (condHolds r n c). Qed.
Lemma combine_seq {A B} (h : A -> B) d (l : list A) : forall s, combine (seq s (length l)) (map h l) = map (fun i => (i, h (nth (i - s) l d))) (seq s (length l)).
Proof.
  induction l as [|a l IH]; intros s; [reflexivity|]. cbn [length seq map combine]. rewrite Nat.sub_diag. cbn [nth]. rewrite IH. f_equal. apply map_ext_in. intros i I. apply in_seq in I. replace (i - s) with (S (i - S s)) by lia. reflexivity.
Qed.

Definition node0 : node := mkNode 0 0 [] [].
(** The value of a name in a state. *)
Definition lit (names : list string) (v : node) (x : string) : bool := match get x (dictOf names v) with Some z => negb (Z.eqb z 0) | None => false end.
Fixpoint lits (names : list string) (v : node) (p : string) (l : list string) (c : cond) : cond :=
  match l with [] => c | a :: l => lits names v p l (CAnd c (CLit (lit names v a) (p ++ a))) end.
Lemma lits_holds names v p r n l : forall c, condHolds r n (lits names v p l c) = condHolds r n c && forallb (fun a => Bool.eqb (t_var r n (p ++ a)) (lit names v a)) l.
Proof. induction l as [|a l IH]; intros c; cbn [lits forallb]; [now rewrite andb_true_r|]. rewrite IH. cbn [condHolds]. now rewrite andb_assoc. Qed.

Section RUNS.
  Variables (names : list string) (out : nat -> bool) (ins outs : list string) (A : list node).
  Hypothesis ND : NoDup names.
  Hypothesis Hin : forall x, In x ins <-> exists k, nth_error names k = Some x /\ out k = false.
  Hypothesis Hout : forall x, In x outs <-> exists k, nth_error names k = Some x /\ out k = true.
  Hypothesis Hvals : forall v, In v A -> length (n_vals v) = length names.
  Hypothesis Hnum : map n_num A = seq 0 (length A).
  Hypothesis Hsucc : forall v n, In v A -> In n (n_succ v) -> n < length A.

  Local Notation N := (length names).
  Local Notation len := (length A).
  Local Notation sts := (stsOf names A).
  Local Notation state k := (nth k A node0).

  Lemma ins_names x : In x ins -> In x names.
  Proof. rewrite Hin. intros (k & H & _). now apply nth_error_In in H. Qed.
  Lemma outs_names x : In x outs -> In x names.
  Proof. rewrite Hout. intros (k & H & _). now apply nth_error_In in H. Qed.
  Lemma state_in k : k < len -> In (state k) A.
  Proof. intros H. now apply nth_In. Qed.
  Lemma state_num k : k < len -> n_num (state k) = k.
  Proof.
    intros H. rewrite <- (map_nth n_num). change (n_num node0) with 0. rewrite Hnum. rewrite seq_nth by exact H. reflexivity.
  Qed.
  Lemma num_state v : In v A -> n_num v < len /\ state (n_num v) = v.
  Proof. intros I. apply (In_nth _ _ node0) in I. destruct I as (k & H & <-). rewrite state_num by exact H. auto. Qed.
  Lemma length_sts : length sts = len.
  Proof. unfold stsOf. now rewrite map_length. Qed.

  Lemma get_dict : forall ns, NoDup ns -> forall vs k x, length vs = length ns -> nth_error ns k = Some x -> get x (combine ns (map zbit vs)) = Some (zbit (nth k vs false)).
  Proof.
    induction 1 as [|y ns NI _ IH]; intros [|b vs] k x E H; try discriminate E; [destruct k; discriminate|]. cbn [map combine get]. destruct k as [|k]; cbn [nth_error nth] in *.
    - injection H as ->. now rewrite String.eqb_refl.
    - destruct (String.eqb_spec y x) as [->|]; [apply nth_error_In in H; contradiction|]. apply IH; auto.
  Qed.
  Lemma get_val v k x : In v A -> nth_error names k = Some x -> get x (dictOf names v) = Some (zbit (val v k)).
  Proof. intros I H. apply get_dict; auto. Qed.
  Lemma lit_val v k x : In v A -> nth_error names k = Some x -> lit names v x = val v k.
  Proof. intros I H. unfold lit. rewrite (get_val v k x I H). now destruct (val v k). Qed.
  Lemma bitAt_ok k x : k < len -> In x names -> bitAt sts k x = Ret (lit names (state k) x).
  Proof.
    intros H I. unfold bitAt, stsOf. rewrite (map_nth_error _ k A (d := state k)) by (apply nth_error_nth'; exact H). unfold lit. apply In_nth_error in I. destruct I as (i & Hi). now rewrite (get_val _ i x (state_in k H) Hi).
  Qed.
  Lemma withLits_ok k p l : k < len -> incl l names -> forall c, withLits sts k p l c = Ret (lits names (state k) p l c).
  Proof.
    intros H. induction l as [|a l IH]; intros I c; [reflexivity|]. cbn [withLits lits]. rewrite bitAt_ok by (auto; apply I; now left). cbn [pybind]. apply IH. intros y J. apply I. now right.
  Qed.

  Definition transC {V} (w : nat -> list V) : list (cond * list V) :=
    flat_map (fun i => map (fun s => (lits names (state s) "v_" ins (CState i), w s)) (n_succ (state i))) (seq 0 len).
  Definition initC {V} (w : nat -> list V) : list (cond * list V) :=
    map (fun k => (lits names (state k) "i_" outs (lits names (state k) "v_" ins (CState len)), w k)) (seq 0 len).
  Lemma transitionCases_ok {V} (what : nat -> pyres (list V)) w : (forall k, k < len -> what k = Ret (w k)) -> transitionCases sts ins what = Ret (transC w).
  Proof.
    intros W. unfold transitionCases. rewrite length_sts. unfold stsOf. rewrite (combine_seq _ node0 A 0).
    rewrite (pyMapM_ret _ (fun p => map (fun s => (lits names (state s) "v_" ins (CState (fst p)), w s)) (snd (snd p)))).
    - cbn [pybind]. rewrite map_map. unfold transC. rewrite flat_map_concat_map. f_equal. f_equal. apply map_ext. intros i. cbn [fst snd]. now rewrite Nat.sub_0_r.
    - intros p I. apply in_map_iff in I. destruct I as (i & <- & I). apply in_seq in I. cbn [fst snd]. rewrite Nat.sub_0_r. apply pyMapM_ret. intros s J. assert (Hs : s < len) by (apply (Hsucc (state i)); auto; apply state_in; lia).
      rewrite (withLits_ok s "v_" ins Hs) by (intros y; apply ins_names). cbn [pybind]. rewrite W by exact Hs. reflexivity.
  Qed.
  Lemma initialCases_ok {V} (what : nat -> pyres (list V)) w : (forall k, k < len -> what k = Ret (w k)) -> initialCases sts ins outs what = Ret (initC w).
  Proof.
    intros W. unfold initialCases. rewrite length_sts. apply pyMapM_ret. intros k I. apply in_seq in I. rewrite (withLits_ok k) by (try lia; intros y; apply ins_names). cbn [pybind].
    rewrite (withLits_ok k) by (try lia; intros y; apply outs_names). cbn [pybind]. rewrite W by lia. reflexivity.
  Qed.
  Definition stateC : list (cond * list nat) := (transC (fun s => [s]) ++ initC (possibleStates sts) ++ [(CLess len, seq 0 len); (CTrue, [len])])%list.
  Definition outC (o : string) : list (cond * list bool) := (transC (fun s => [lit names (state s) o]) ++ initC (fun s => [lit names (state s) o]) ++ [(CTrue, [false; true])])%list.
  Lemma stateCases_ok : stateCases sts ins outs = Ret stateC.
  Proof. unfold stateCases. rewrite (transitionCases_ok _ (fun s => [s])) by reflexivity. cbn [pybind]. rewrite (initialCases_ok _ (possibleStates sts)) by reflexivity. cbn [pybind]. now rewrite length_sts. Qed.
  Lemma outputCases_ok o : In o names -> outputCases sts ins outs o = Ret (outC o).
  Proof.
    intros I. unfold outputCases. assert (W : forall k, k < len -> pybind (bitAt sts k o) (fun b => Ret [b]) = Ret [lit names (state k) o]) by (intros k H; now rewrite bitAt_ok).
    rewrite (transitionCases_ok _ (fun s => [lit names (state s) o]) W). cbn [pybind]. rewrite (initialCases_ok _ (fun s => [lit names (state s) o]) W). reflexivity.
  Qed.

  (** The case that is chosen. *)
  Definition matchIn (r : trace) (n s : nat) : bool := forallb (fun a => Bool.eqb (t_var r n ("v_" ++ a)) (lit names (state s) a)) ins.
  Definition matchOut (r : trace) (n s : nat) : bool := forallb (fun a => Bool.eqb (t_var r n ("i_" ++ a)) (lit names (state s) a)) outs.
  Lemma sel_trans {V} (w w' : nat -> list V) r n rest : t_state r n < len ->
    selected r n (transC w ++ initC w' ++ rest) = match find (matchIn r n) (n_succ (state (t_state r n))) with Some s => w s | None => selected r n rest end.
  Proof.
    intros H. rewrite selected_app. unfold transC. rewrite (find_flat _ _ (t_state r n)).
    - rewrite find_map. cbn [fst]. rewrite (find_ext _ (matchIn r n)).
      + destruct (find (matchIn r n) _); [reflexivity|]. cbn [option_map]. rewrite selected_app. unfold initC. rewrite find_map. cbn [fst]. rewrite (find_ext _ (fun _ => false)).
        * now replace (find (fun _ : nat => false) (seq 0 len)) with (@None nat) by (generalize (seq 0 len); induction l; auto).
        * intros k _. rewrite !lits_holds. cbn [condHolds]. destruct (Nat.eqb_spec (t_state r n) len); [lia|reflexivity].
      + intros s _. rewrite lits_holds. cbn [condHolds]. now rewrite Nat.eqb_refl.
    - intros i _ NE. rewrite find_map. rewrite (find_ext _ (fun _ => false)).
      + now replace (find (fun _ : nat => false) (n_succ (state i))) with (@None nat) by (generalize (n_succ (state i)); induction l; auto).
      + intros s _. cbn [fst]. rewrite lits_holds. cbn [condHolds]. destruct (Nat.eqb_spec (t_state r n) i); [congruence|reflexivity].
    - apply in_seq. lia.
  Qed.
  Lemma sel_init {V} (w w' : nat -> list V) r n rest : t_state r n = len ->
    selected r n (transC w ++ initC w' ++ rest) = match find (fun k => matchIn r n k && matchOut r n k) (seq 0 len) with Some s => w' s | None => selected r n rest end.
  Proof.
    intros H. rewrite selected_app. unfold transC. rewrite find_flat_none.
    - rewrite selected_app. unfold initC. rewrite find_map. cbn [fst]. rewrite (find_ext _ (fun k => matchIn r n k && matchOut r n k)).
      + now destruct (find _ (seq 0 len)).
      + intros k _. rewrite !lits_holds. cbn [condHolds]. now rewrite H, Nat.eqb_refl.
    - intros i I. apply in_seq in I. rewrite find_map. rewrite (find_ext _ (fun _ => false)).
      + now replace (find (fun _ : nat => false) (n_succ (state i))) with (@None nat) by (generalize (n_succ (state i)); induction l; auto).
      + intros s _. cbn [fst]. rewrite lits_holds. cbn [condHolds]. destruct (Nat.eqb_spec (t_state r n) i); [lia|reflexivity].
  Qed.

  (** Equal dictionaries. *)
  Lemma possible_spec k j : k < len -> (In j (possibleStates sts k) <-> j < len /\ same N (val (state j)) (val (state k))).
  Proof.
    intros H. unfold possibleStates. rewrite filter_In, in_seq, length_sts. cbn [Nat.add].
    assert (D : forall i, i < len -> fst (nth i sts ([], [])) = dictOf names (state i)).
    { intros i Hi. unfold stsOf. rewrite (nth_indep _ _ (dictOf names node0, n_succ node0)) by now rewrite map_length. now rewrite (map_nth (fun v => (dictOf names v, n_succ v))). }
    assert (G : forall v u, In v A -> In u A -> (forallb (fun p => match get (fst p) (dictOf names u) with Some z => Z.eqb z (snd p) | None => false end) (dictOf names v) = true <-> same N (val v) (val u))).
    { intros v u Iv Iu. rewrite forallb_forall. split.
      - intros F i Hi. destruct (nth_error names i) as [x|] eqn:E; [|apply nth_error_None in E; lia]. assert (I : In (x, zbit (val v i)) (dictOf names v)).
        { unfold dictOf. assert (E2 : nth_error (map zbit (n_vals v)) i = Some (zbit (val v i))) by (apply map_nth_error, nth_error_nth'; rewrite Hvals; auto).
          clear - E E2. revert E E2. generalize (zbit (val v i)). intros w. revert i. generalize (map zbit (n_vals v)). induction names as [|y ns IH]; intros zs [|i] E E2; try discriminate E; destruct zs as [|z zs]; try discriminate E2; cbn in *.
          - left. congruence.
          - right. now apply (IH zs i). }
        apply F in I. cbn [fst snd] in I. rewrite (get_val u i x Iu E) in I. apply Z.eqb_eq in I. destruct (val v i), (val u i); try reflexivity; discriminate.
      - intros S0 [x z] I. assert (J : exists i, nth_error names i = Some x /\ z = zbit (val v i) /\ i < N).
        { unfold dictOf in I. apply (In_nth_error) in I. destruct I as (i & I). exists i.
          assert (C : forall (a : list string) (b : list Z) i p, nth_error (combine a b) i = Some p -> nth_error a i = Some (fst p) /\ nth_error b i = Some (snd p)).
          { induction a as [|y a IH]; intros [|w b] [|m] p E; try discriminate E; cbn in *; [injection E as <-; auto|]. now apply IH. }
          apply C in I. cbn [fst snd] in I. destruct I as [I1 I2]. split; [exact I1|]. split; [|apply nth_error_Some; rewrite I1; discriminate].
          rewrite nth_error_map in I2. unfold val. destruct (nth_error (n_vals v) i) as [b|] eqn:E; [|discriminate]. injection I2 as <-. now rewrite (nth_error_nth _ _ false E). }
        destruct J as (i & J1 & -> & J3). cbn [fst snd]. rewrite (get_val u i x Iu J1), (S0 i J3). now apply Z.eqb_eq. }
    split.
    - intros [[_ H1] H2]. split; [exact H1|]. rewrite !D in H2 by auto. unfold dictEqb in H2. apply andb_true_iff in H2. destruct H2 as [_ H2]. apply (G (state j) (state k)) in H2; auto using state_in.
    - intros [H1 H2]. split; [lia|]. rewrite !D by auto. unfold dictEqb. apply andb_true_iff. split; apply G; auto using state_in. intros i Hi. symmetry. now apply H2.
  Qed.

  (** ** Traces and positions *)

  Definition rel (r : trace) (pi : nat -> Spec.state) : Prop := forall n k x, nth_error names k = Some x ->
    (out k = false -> t_var r n ("v_" ++ x) = pi n k) /\ (out k = true -> t_var r (S n) ("v_" ++ x) = pi n k).
  Lemma matchIn_spec r pi n s : rel r pi -> s < len -> matchIn r n s = inputMatches out N (pi n) (state s).
  Proof.
    intros R H. apply eq_true_iff_eq. unfold matchIn, inputMatches. rewrite !forallb_forall. split.
    - intros F k I. apply in_seq in I. destruct (out k) eqn:O; [reflexivity|]. cbn [orb]. destruct (nth_error names k) as [x|] eqn:E; [|apply nth_error_None in E; lia].
      rewrite <- (proj1 (R n k x E) O), <- (lit_val _ k x (state_in s H) E). apply F. apply Hin. eauto.
    - intros F x I. apply Hin in I. destruct I as (k & E & O). assert (K : k < N) by (apply nth_error_Some; rewrite E; discriminate).
      specialize (F k ltac:(apply in_seq; lia)). rewrite O in F. cbn [orb] in F. rewrite (proj1 (R n k x E) O), (lit_val _ k x (state_in s H) E). exact F.
  Qed.
  Lemma successor_spec r pi n i : rel r pi -> i < len ->
    successorFor out N A (state i) (pi n) = option_map (fun s => state s) (find (matchIn r n) (n_succ (state i))).
  Proof.
    intros R H. unfold successorFor. rewrite find_map. unfold node0. f_equal. apply find_ext. intros s I. symmetry. apply matchIn_spec; auto. now apply (Hsucc (state i)); [apply state_in|].
  Qed.

  Definition nextsC : list (string * list (cond * list bool)) := map (fun o => ("v_" ++ o, outC o)) outs.
  Definition moduleOf (specs : list ltl) : smv := mkSmv (map (append "v_") ins ++ map (append "i_") outs) (map (append "v_") outs) len len stateC nextsC specs.

  Definition posOf (r : trace) : nat -> Spec.state := fun n k => match nth_error names k with Some x => if out k then t_var r (S n) ("v_" ++ x) else t_var r n ("v_" ++ x) | None => false end.
  Lemma posOf_rel r : rel r (posOf r).
  Proof. intros n k x E. unfold posOf. rewrite E. split; now intros ->. Qed.

  Lemma runs_behaves specs r : runs (moduleOf specs) r -> t_state r 1 <> len -> behaves out N A (posOf r).
  Proof.
    intros (R0 & R) NE. cbn [m_init moduleOf m_last m_state m_next] in *.
    assert (ST : forall n, t_state r (S n) < len).
    { induction n as [|n IH]; [destruct (R 1) as (H & _); cbn in *; lia|]. destruct (R (S n)) as (_ & H & _). unfold stateC in H. rewrite sel_trans in H by exact IH. destruct (find _ _) as [s|] eqn:F.
      - destruct H as [<-|[]]. apply find_some in F. apply (Hsucc (state (t_state r (S n)))); [now apply state_in|apply F].
      - cbn [selected condHolds] in H. destruct (Nat.ltb_spec (t_state r (S n)) len); [|lia]. apply in_seq in H. lia. }
    exists (fun n => state (t_state r (S n))). split; [intros n; now apply state_in|]. split.
    - destruct (R 0) as (_ & H1 & H2). unfold stateC in H1. rewrite sel_init in H1 by exact R0. destruct (find (fun k => matchIn r 0 k && matchOut r 0 k) (seq 0 len)) as [k|] eqn:F.
      2: { cbn [selected condHolds] in H1. rewrite R0 in H1. rewrite Nat.ltb_irrefl in H1. destruct H1 as [H1|[]]. congruence. }
      pose proof F as F'. apply find_some in F'. destruct F' as [K F']. apply in_seq in K. apply andb_true_iff in F'. destruct F' as [F1 F2]. apply possible_spec in H1; [|lia]. destruct H1 as [_ H1].
      intros i Hi. rewrite (H1 i Hi). destruct (nth_error names i) as [x|] eqn:E; [|apply nth_error_None in E; lia]. unfold posOf. rewrite E. rewrite <- (lit_val _ i x (state_in k ltac:(lia)) E). destruct (out i) eqn:O.
      + assert (Ix : In x outs) by (apply Hout; eauto). specialize (H2 ("v_" ++ x) (outC x)). unfold nextsC in H2. specialize (H2 (in_map (fun o => ("v_" ++ o, outC o)) _ _ Ix)). unfold outC in H2. rewrite sel_init in H2 by exact R0. rewrite F in H2. now destruct H2 as [H2|[]].
      + assert (Ix : In x ins) by (apply Hin; eauto). unfold matchIn in F1. rewrite forallb_forall in F1. apply F1 in Ix. now apply eqb_prop in Ix.
    - intros n u H. rewrite (successor_spec r (posOf r) (S n) _ (posOf_rel r) (ST n)) in H. destruct (find (matchIn r (S n)) (n_succ (state (t_state r (S n))))) as [s|] eqn:F; [|discriminate H]. cbn [option_map] in H. injection H as <-.
      pose proof F as F'. apply find_some in F'. destruct F' as [I F']. assert (Hs : s < len) by (apply (Hsucc (state (t_state r (S n)))); [apply state_in, ST|exact I]).
      destruct (R (S n)) as (_ & H1 & H2). unfold stateC in H1. rewrite sel_trans in H1 by apply ST. rewrite F in H1. destruct H1 as [H1|[]]. split; [now rewrite <- H1|].
      intros i Hi. destruct (nth_error names i) as [x|] eqn:E; [|apply nth_error_None in E; lia]. unfold posOf. rewrite E. rewrite <- (lit_val _ i x (state_in s Hs) E). destruct (out i) eqn:O.
      + assert (Ix : In x outs) by (apply Hout; eauto). specialize (H2 ("v_" ++ x) (outC x)). unfold nextsC in H2. specialize (H2 (in_map (fun o => ("v_" ++ o, outC o)) _ _ Ix)). unfold outC in H2. rewrite sel_trans in H2 by apply ST. rewrite F in H2. now destruct H2 as [H2|[]].
      + assert (Ix : In x ins) by (apply Hin; eauto). unfold matchIn in F'. rewrite forallb_forall in F'. apply F' in Ix. now apply eqb_prop in Ix.
  Qed.

  (** From positions to traces. *)
  Fixpoint indexIn (x : string) (l : list string) : option nat :=
    match l with [] => None | y :: l => if String.eqb y x then Some 0 else option_map S (indexIn x l) end.
  Lemma indexIn_nth l : NoDup l -> forall k x, nth_error l k = Some x -> indexIn x l = Some k.
  Proof.
    induction 1 as [|y l NI _ IH]; intros [|k] x E; try discriminate E; cbn in *.
    - injection E as ->. now rewrite String.eqb_refl.
    - destruct (String.eqb_spec y x) as [->|]; [apply nth_error_In in E; contradiction|]. now rewrite (IH k x E).
  Qed.
  Definition traceOf (q : nat -> node) (pi : nat -> Spec.state) : trace :=
    mkTrace (fun n => match n with O => len | S n => n_num (q n) end)
      (fun n s => match s with
                  | String "v" (String "_" x) => match indexIn x names with Some k => if out k then match n with O => false | S n => pi n k end else pi n k | None => false end
                  | String "i" (String "_" x) => match indexIn x names with Some k => pi n k | None => false end
                  | _ => false
                  end).
  Lemma traceOf_rel q pi : rel (traceOf q pi) pi.
  Proof. intros n k x E. cbn [traceOf t_var append]. rewrite (indexIn_nth names ND k x E). split; now intros ->. Qed.
  Lemma behaves_runs specs pi : behaves out N A pi -> exists r, runs (moduleOf specs) r /\ rel r pi /\ t_state r 1 <> len.
  Proof.
    intros (q & Q & Q0 & QS). set (r := traceOf q pi). pose proof (traceOf_rel q pi : rel r pi) as RL. exists r. split; [|split; [exact RL|]].
    2: { cbn. pose proof (proj1 (num_state (q 0) (Q 0))). lia. }
    split; [reflexivity|]. cbn [m_init moduleOf m_last m_state m_next].
    assert (NX : forall n k x, nth_error names k = Some x -> out k = true -> t_var r (S n) ("v_" ++ x) = pi n k) by (intros n k x E O; now apply (RL n k x E)).
    intros [|n].
    - split; [cbn; lia|].
      assert (FM : forall s, s < len -> matchIn r 0 s && matchOut r 0 s = true <-> same N (val (q 0)) (val (state s))).
      { intros s Hs. rewrite andb_true_iff. unfold matchIn, matchOut. rewrite !forallb_forall. split.
        - intros [M1 M2] k Hk. rewrite <- (Q0 k Hk). destruct (nth_error names k) as [x|] eqn:E; [|apply nth_error_None in E; lia]. rewrite <- (lit_val _ k x (state_in s Hs) E). destruct (out k) eqn:O.
          + specialize (M2 x (proj2 (Hout x) (ex_intro _ k (conj E O)))). apply eqb_prop in M2. rewrite <- M2. cbn [r traceOf t_var append]. now rewrite (indexIn_nth names ND k x E).
          + specialize (M1 x (proj2 (Hin x) (ex_intro _ k (conj E O)))). apply eqb_prop in M1. rewrite <- M1. symmetry. now apply (RL 0 k x E).
        - intros S0. split; intros x I.
          + apply Hin in I. destruct I as (k & E & O). assert (K : k < N) by (apply nth_error_Some; rewrite E; discriminate). rewrite (proj1 (RL 0 k x E) O), (lit_val _ k x (state_in s Hs) E), (Q0 k K), (S0 k K). apply eqb_reflx.
          + apply Hout in I. destruct I as (k & E & O). assert (K : k < N) by (apply nth_error_Some; rewrite E; discriminate). cbn [r traceOf t_var append]. rewrite (indexIn_nth names ND k x E), (lit_val _ k x (state_in s Hs) E), (Q0 k K), (S0 k K). apply eqb_reflx. }
      destruct (num_state (q 0) (Q 0)) as [B0 B1]. destruct (find (fun k => matchIn r 0 k && matchOut r 0 k) (seq 0 len)) as [s|] eqn:F.
      2: { exfalso. pose proof (find_none _ _ F (n_num (q 0)) ltac:(apply in_seq; lia)) as X. cbv beta in X. rewrite <- not_true_iff_false in X. apply X. apply FM; [exact B0|]. rewrite B1. easy. }
      pose proof F as F'. apply find_some in F'. destruct F' as [I F']. apply in_seq in I. apply FM in F'; [|lia]. split.
      + unfold stateC. rewrite sel_init by reflexivity. rewrite F. apply possible_spec; [lia|]. cbn [r traceOf t_state]. split; [exact B0|]. now rewrite B1.
      + intros y cs J. unfold nextsC in J. apply in_map_iff in J. destruct J as (x & EJ & J). apply pair_equal_spec in EJ. destruct EJ as [<- <-]. unfold outC. rewrite sel_init by reflexivity. rewrite F. left. apply Hout in J. destruct J as (k & E & O). assert (K : k < N) by (apply nth_error_Some; rewrite E; discriminate).
        rewrite (lit_val _ k x (state_in s ltac:(lia)) E), (NX 0 k x E O), (Q0 k K). symmetry. now apply F'.
    - destruct (num_state (q n) (Q n)) as [B0 B1]. destruct (num_state (q (S n)) (Q (S n))) as [C0 C1]. assert (TS : t_state r (S n) = n_num (q n)) by reflexivity. split; [rewrite TS; lia|].
      assert (SF : successorFor out N A (q n) (pi (S n)) = option_map (fun s => state s) (find (matchIn r (S n)) (n_succ (state (t_state r (S n)))))).
      { rewrite TS, <- B1 at 1. apply successor_spec; auto. }
      destruct (find (matchIn r (S n)) (n_succ (state (t_state r (S n))))) as [s|] eqn:F.
      + cbn [option_map] in SF. destruct (QS n _ SF) as [Q1 Q2]. pose proof F as F'. apply find_some in F'. destruct F' as [I _]. assert (Hs : s < len) by (apply (Hsucc (state (t_state r (S n)))); [apply state_in; rewrite TS; lia|exact I]). split.
        * unfold stateC. rewrite sel_trans by (rewrite TS; exact B0). rewrite F. left. change (t_state r (S (S n))) with (n_num (q (S n))). rewrite Q1. symmetry. now apply state_num.
        * intros y cs J. unfold nextsC in J. apply in_map_iff in J. destruct J as (x & EJ & J). apply pair_equal_spec in EJ. destruct EJ as [<- <-]. unfold outC. rewrite sel_trans by (rewrite TS; exact B0). rewrite F. left. apply Hout in J. destruct J as (k & E & O). assert (K : k < N) by (apply nth_error_Some; rewrite E; discriminate).
          rewrite (lit_val _ k x (state_in s Hs) E), (NX (S n) k x E O). symmetry. now apply Q2.
      + split.
        * unfold stateC. rewrite sel_trans by (rewrite TS; exact B0). rewrite F. cbn [selected condHolds]. rewrite TS. destruct (Nat.ltb_spec (n_num (q n)) len); [|lia]. apply in_seq. change (t_state r (S (S n))) with (n_num (q (S n))). lia.
        * intros y cs J. unfold nextsC in J. apply in_map_iff in J. destruct J as (x & EJ & J). apply pair_equal_spec in EJ. destruct EJ as [<- <-]. unfold outC. rewrite sel_trans by (rewrite TS; exact B0). rewrite F. cbn [selected condHolds]. destruct (t_var r (S (S n)) ("v_" ++ x)); cbn; auto.
  Qed.
End RUNS.
