(** * Proofs about the translation to circuits: the whole circuit *)

From Coq Require Import String Ascii List Bool Arith NArith ZArith Lia Permutation.
From Verif Require Import Spec FormulaSpec FileSpec Parser ParserProofs FileProofs Explicit OutputProofs EstimatorText
  MinCore MonoProofs MinCoreProofs Aig AigSpec AigProofs AigFile.
Import ListNotations.
Local Open Scope string_scope.
Local Open Scope list_scope.

(** The monitor gates. *)
Definition monG (target other second : nat) (v gInit gTrans notFirst : nat) : list gate :=
  [(target, other, second);
   ((v + 1) * 2, S ((v + 2) * 2), S ((v + 3) * 2));
   ((v + 2) * 2, flip gInit, flip notFirst);
   ((v + 3) * 2, flip gTrans, notFirst)].
Lemma monitor_gl target other second v gI gT nf : map gl (monG target other second v gI gT nf) = monitor target other second v gI gT nf.
Proof.
  unfold monG, monitor. cbn [map gl]. replace (S ((v + 2) * 2)) with (v * 2 + 5) by lia. replace (S ((v + 3) * 2)) with (v * 2 + 7) by lia.
  replace ((v + 1) * 2) with (v * 2 + 2) by lia. replace ((v + 2) * 2) with (v * 2 + 4) by lia. now replace ((v + 3) * 2) with (v * 2 + 6) by lia.
Qed.
(** In the order of evaluation. *)
Definition monO (target other second : nat) (v gInit gTrans notFirst : nat) : list gate :=
  [((v + 2) * 2, flip gInit, flip notFirst);
   ((v + 3) * 2, flip gTrans, notFirst);
   ((v + 1) * 2, S ((v + 2) * 2), S ((v + 3) * 2));
   (target, other, second)].
Lemma mon_perm t o s v gI gT nf : Permutation (monO t o s v gI gT nf) (monG t o s v gI gT nf).
Proof.
  unfold monO, monG. generalize (t, o, s). intros x.
  match goal with |- Permutation [?a; ?b; ?c; x] _ => generalize a b c end. intros a b c. 
  apply Permutation_sym. change [x; c; a; b] with ([x] ++ [c] ++ [a; b]). change [a; b; c; x] with ([a; b] ++ [c] ++ [x]).
  rewrite Permutation_app_comm, <- app_assoc. rewrite Permutation_app_comm, <- app_assoc.
  rewrite (Permutation_app_comm [x] [c]). rewrite !app_assoc. apply Permutation_app_tail. reflexivity.
Qed.

Lemma lit_mon e t o s v gI gT nf : gatesOk e (monG t o s v gI gT nf) ->
  lit e t = lit e o && lit e s /\
  lit e ((v + 1) * 2) = if lit e nf then lit e gT else lit e gI.
Proof.
  intros G. split; [apply G; now left|].
  rewrite (G _ _ _ (or_intror (or_introl eq_refl))), !lit_odd, (G _ _ _ (or_intror (or_intror (or_introl eq_refl)))),
    (G _ _ _ (or_intror (or_intror (or_intror (or_introl eq_refl))))), !lit_flip.
  destruct (lit e nf), (lit e gI), (lit e gT); reflexivity.
Qed.

Section FILE.
  Variable content : string.
  Variable L : items.
  Variable fs : section -> list fml.
  Hypothesis El : layout None (file_lines content) = Some L.
  Hypothesis ND : NoDup (declared L).
  Hypothesis F : formulas_of false L fs.
  Hypothesis SP : forall s line, formulaSection s = true -> In (s, line) L -> spaced line.
  Hypothesis NE : linesOf SEnvLive L = [].
  Hypothesis NS : linesOf SSysLive L = [].

  Definition inputNames : list string := linesOf SInput L ++ linesOf SOutput L.
  Definition K : nat := length inputNames.

  Lemma names_perm : Permutation (map snd (decls L)) inputNames.
  Proof.
    rewrite (Permutation_map snd (decls_perm L)), map_app, !map_map. unfold inputNames. cbn [snd]. now rewrite !map_id.
  Qed.
  Lemma NDnames : NoDup (inputNames ++ map primed inputNames).
  Proof.
    assert (P : Permutation (declared L) (inputNames ++ map primed inputNames)).
    { rewrite declared_decls.
      assert (X : forall D : items, Permutation (flat_map (fun p => [snd p; (snd p ++ "'")%string]) D) (map snd D ++ map primed (map snd D))).
      { induction D as [|p D IH]; [constructor|]. cbn [flat_map map app]. constructor. rewrite IH. apply Permutation_middle. }
      rewrite X, (Permutation_map primed names_perm), names_perm. reflexivity. }
    exact (Permutation_NoDup P ND).
  Qed.

  (** The names of variable k and of its next value. *)
  Lemma var_even s w i : file_var L s w i -> Nat.even i = true ->
    exists j, nth_error inputNames j = Some w /\ i = 2 * Nat.div2 i.
  Proof.
    intros [H _] E. assert (Ei : i = 2 * Nat.div2 i) by (rewrite (Nat.div2_odd i) at 1; unfold Nat.odd; rewrite E; cbn; lia).
    rewrite declared_decls, Ei, nth_decl_even in H. destruct (nth_error (decls L) (Nat.div2 i)) as [p|] eqn:Ep; [|discriminate]. injection H as <-.
    assert (I : In (snd p) inputNames) by (apply (Permutation_in _ names_perm), in_map, (nth_error_In _ _ Ep)).
    apply In_nth_error in I. destruct I as (j & Hj). exists j. auto.
  Qed.
  Lemma var_odd s w i : file_var L s w i -> Nat.even i = false ->
    exists j x, nth_error inputNames j = Some x /\ w = primed x /\ nth_error (declared L) (2 * Nat.div2 i) = Some x.
  Proof.
    intros [H _] E. assert (Ei : i = 2 * Nat.div2 i + 1) by (rewrite (Nat.div2_odd i) at 1; unfold Nat.odd; rewrite E; cbn; lia).
    rewrite declared_decls in *. rewrite Ei, nth_decl_odd in H. rewrite nth_decl_even.
    destruct (nth_error (decls L) (Nat.div2 i)) as [p|] eqn:Ep; [|discriminate]. injection H as <-.
    assert (I : In (snd p) inputNames) by (apply (Permutation_in _ names_perm), in_map, (nth_error_In _ _ Ep)).
    apply In_nth_error in I. destruct I as (j & Hj). exists j, (snd p). auto.
  Qed.
  Lemma names_lt j w : nth_error inputNames j = Some w -> j < K.
  Proof. intros H. apply nth_error_Some. congruence. Qed.

  Definition secF (s : section) : list fml := match fs s with [] => [FTrue] | l => l end.
  Lemma secF_holds s val : forallb (fun f => holds f val) (secF s) = forallb (fun f => holds f val) (fs s).
  Proof. unfold secF. now destruct (fs s). Qed.
  Lemma one_nonempty ls : one ls <> [].
  Proof. destruct ls; discriminate. Qed.
  Lemma sec_gram s : formulaSection s = true ->
    Forall2 (fun line f => gram (file_var L s) maxNumber false 0 f (words line)) (one (linesOf s L)) (secF s).
  Proof.
    intros Hs. pose proof (F s Hs) as H. unfold secF. destruct H; cbn [one]; [|constructor; auto].
    constructor; [|constructor]. apply g_true.
  Qed.
  Lemma sec_spaced s : formulaSection s = true -> Forall spaced (one (linesOf s L)).
  Proof.
    intros Hs. apply Forall_forall. intros l Hl. destruct (linesOf s L) as [|a ls] eqn:E.
    - destruct Hl as [<-|[]]. reflexivity.
    - cbn [one] in Hl. rewrite <- E in Hl. apply in_linesOf in Hl. eapply SP; eauto.
  Qed.

  (** The variables of inputs and latches. *)
  Definition P0 (x : nat) : Prop := x = 0 \/ 2 <= x <= K + 3 \/ K + 6 <= x <= 2 * K + 5.

  Definition theAig (gEI gET gSI gST v2 v5 : nat) (gs1 gs2 gs4 gs5 : list gate) : aig :=
    mkAig (inputLits 2 K) ((4, 1) :: latchPairs (K + 5) 2 K ++ [((K + 3) * 2, S ((K + 4) * 2))]) [(K + 5) * 2]
      (gs1 ++ gs2 ++ monG ((K + 4) * 2) (S ((K + 3) * 2)) ((v2 + 1) * 2) v2 gEI gET 4 ++
       gs4 ++ gs5 ++ monG ((K + 5) * 2) ((K + 4) * 2) (S ((v5 + 1) * 2)) v5 gSI gST 4).

  Definition P2 (v1 x : nat) : Prop := P0 x \/ 2 * K + 5 < x <= v1.
  Definition P4 (v2 x : nat) : Prop := P0 x \/ x = K + 4 \/ 2 * K + 5 < x <= v2 + 3.
  Definition P5 (v2 v4 x : nat) : Prop := P4 v2 x \/ v2 + 3 < x <= v4.

  Definition outText (M : nat) (A : aig) : list string :=
    ((("aag " ++ String.concat " " (map showNat [M; length (a_inputs A); length (a_latches A); 1; length (a_ands A)]))%string)
       :: map showLine (map (fun l => [l]) (a_inputs A) ++ map (fun p => [fst p; snd p]) (a_latches A) ++
                        map (fun l => [l]) (a_outputs A) ++ map gl (a_ands A))
       ++ symbols "i" "" 0 (linesOf SInput L) ++ symbols "i" "controllable_" (length (linesOf SInput L)) (linesOf SOutput L)
       ++ ["l0 IsNotFirstRound"]
       ++ symbols "l" "prev_" 1 inputNames
       ++ [("l" ++ showNat (length inputNames + 1) ++ " AssumptionsAlreadyViolated")%string; "o0 err"; "c";
           "This input file has been automatically translated by 'translateSafetySlugsSpecToSyntCompAIGFormat.py' from the following input file:"]
       ++ filter (fun l => negb (String.eqb (trim l) "")) (getlines content)).

  Lemma flip_2 v : flip (v * 2) = S (v * 2).
  Proof. unfold flip. now rewrite even_2. Qed.

  Lemma aigMain_spec : exists gEI gET gSI gST v1 v2 v4 v5 n1 n2 n4 n5 gs1 gs2 gs4 gs5 dv dt,
    aigMain content = TOk (outText ((v5 + 3) * 2) (theAig gEI gET gSI gST v2 v5 gs1 gs2 gs4 gs5)) /\
    yields P0 (2 * K + 5) 0 gEI v1 n1 gs1 /\
    yields (P2 v1) v1 n1 gET v2 n2 gs2 /\
    yields (P4 v2) (v2 + 3) (n2 + 4) gSI v4 n4 gs4 /\
    yields (P5 v2 v4) v4 n4 gST v5 n5 gs5 /\
    (forall j w, nth_error inputNames j = Some w -> dget dv w = Some ((3 + j) * 2)) /\
    (forall j w, nth_error inputNames j = Some w -> dget dt w = Some ((K + 6 + j) * 2) /\ dget dt (primed w) = Some ((3 + j) * 2)) /\
    (forall e val, valued dv (file_var L SEnvInit) e val -> gatesOk e gs1 -> lit e gEI = forallb (fun f => holds f val) (fs SEnvInit)) /\
    (forall e val, valued dt (file_var L SEnvTrans) e val -> gatesOk e gs2 -> lit e gET = forallb (fun f => holds f val) (fs SEnvTrans)) /\
    (forall e val, valued dv (file_var L SSysInit) e val -> gatesOk e gs4 -> lit e gSI = forallb (fun f => holds f val) (fs SSysInit)) /\
    (forall e val, valued dt (file_var L SSysTrans) e val -> gatesOk e gs5 -> lit e gST = forallb (fun f => holds f val) (fs SSysTrans)).
  Proof.
    destruct (read_spec (getlines content) None noLines L) as (cat & ER & HC).
    { now rewrite getlines_spec. }
    assert (HC' : forall s, cat s = linesOf s L) by (intros s; rewrite HC; reflexivity). clear HC.
    pose proof NDnames as NDN. assert (NDn : NoDup inputNames) by (eapply PropsParser.NoDup_prefix; exact NDN).
    destruct (declareVars_spec inputNames 2 [] [] NDn) as (dv & EV & LV & HV & _); [reflexivity|].
    destruct (declareLatches_spec dv inputNames (2 + K + 3) 2 [] (map (fun l => [l]) (inputLits 2 K) ++ [[4; 1]]) NDN HV) as (dt & ET & HT & _).
    assert (HV' : forall j w, nth_error inputNames j = Some w -> dget dv w = Some ((3 + j) * 2)) by exact HV.
    assert (HT' : forall j w, nth_error inputNames j = Some w -> dget dt w = Some ((K + 6 + j) * 2) /\ dget dt (primed w) = Some ((3 + j) * 2)).
    { intros j w Hj. destruct (HT j w Hj) as [H1 H2]. rewrite H1, H2. split; [f_equal; lia|reflexivity]. }
    assert (KI : forall s (P : nat -> Prop) v, (s = SEnvInit \/ s = SSysInit) -> P 0 -> (forall x, P x -> x <= v) -> (forall x, P0 x -> P x) -> knows dv (file_var L s) P v).
    { intros s P v Hs H0 H1 H2. split; [exact H0|]. split; [exact H1|]. intros w i Hv.
      assert (E : Nat.even i = true).
      { destruct Hv as [_ Hv]. unfold Nat.odd in Hv. destruct (Nat.even i); auto. destruct Hs; subst s; cbn in Hv; rewrite ?andb_false_r in Hv; discriminate. }
      destruct (var_even s w i Hv E) as (j & Hj & _). exists ((3 + j) * 2). split; [auto|]. apply H2. rewrite div2_2. right. left. apply names_lt in Hj. lia. }
    assert (KT : forall s (P : nat -> Prop) v, P 0 -> (forall x, P x -> x <= v) -> (forall x, P0 x -> P x) -> knows dt (file_var L s) P v).
    { intros s P v H0 H1 H2. split; [exact H0|]. split; [exact H1|]. intros w i Hv. destruct (Nat.even i) eqn:E.
      - destruct (var_even s w i Hv E) as (j & Hj & _). exists ((K + 6 + j) * 2). split; [apply HT'; auto|]. apply H2. rewrite div2_2. right. right. apply names_lt in Hj. lia.
      - destruct (var_odd s w i Hv E) as (j & x & Hj & -> & _). exists ((3 + j) * 2). split; [apply HT'; auto|]. apply H2. rewrite div2_2. right. left. apply names_lt in Hj. lia. }
    destruct (encodeSection_spec dv (file_var L SEnvInit) maxNumber (one (linesOf SEnvInit L)) (secF SEnvInit) P0 (2 * K + 5) 0 (sec_gram SEnvInit eq_refl)
      (one_nonempty _) (sec_spaced SEnvInit eq_refl)) as (gEI & v1 & n1 & gs1 & R1 & Y1 & D1).
    { apply KI; auto; unfold P0; lia. }
    assert (V1 : 2 * K + 5 <= v1) by (destruct Y1 as (-> & _); lia).
    destruct (encodeSection_spec dt (file_var L SEnvTrans) maxNumber (one (linesOf SEnvTrans L)) (secF SEnvTrans) (P2 v1) v1 n1 (sec_gram SEnvTrans eq_refl)
      (one_nonempty _) (sec_spaced SEnvTrans eq_refl)) as (gET & v2 & n2 & gs2 & R2 & Y2 & D2).
    { apply KT; unfold P2, P0; intros; lia. }
    assert (V2 : v1 <= v2) by (destruct Y2 as (-> & _); lia).
    destruct (encodeSection_spec dv (file_var L SSysInit) maxNumber (one (linesOf SSysInit L)) (secF SSysInit) (P4 v2) (v2 + 3) (n2 + 4) (sec_gram SSysInit eq_refl)
      (one_nonempty _) (sec_spaced SSysInit eq_refl)) as (gSI & v4 & n4 & gs4 & R4 & Y4 & D4).
    { apply KI; auto; unfold P4, P0; intros; lia. }
    assert (V4 : v2 + 3 <= v4) by (destruct Y4 as (-> & _); lia).
    destruct (encodeSection_spec dt (file_var L SSysTrans) maxNumber (one (linesOf SSysTrans L)) (secF SSysTrans) (P5 v2 v4) v4 n4 (sec_gram SSysTrans eq_refl)
      (one_nonempty _) (sec_spaced SSysTrans eq_refl)) as (gST & v5 & n5 & gs5 & R5 & Y5 & D5).
    { apply KT; unfold P5, P4, P0; intros; lia. }
    exists gEI, gET, gSI, gST, v1, v2, v4, v5, n1, n2, n4, n5, gs1, gs2, gs4, gs5, dv, dt.
    split; [|repeat (split; [assumption|]); repeat split; intros e val H G; rewrite <- secF_holds; auto].
    unfold aigMain. cbn [nameOf] in ER. rewrite ER. cbn [tget tbind]. rewrite !HC', NE, NS. cbn [length Nat.eqb negb].
    change (linesOf SInput L ++ linesOf SOutput L) with inputNames. rewrite EV. fold K. cbn [app]. cbn zeta.
    change (1 * 2 + 2) with 4. match type of ET with ?a = _ => match goal with |- tbind ?x _ = _ => change x with a end end. rewrite ET. cbn [tbind]. fold K. replace (2 + K + 3 + K) with (2 * K + 5) by lia.
    rewrite R1. cbn [tbind]. rewrite R2. cbn [tbind]. rewrite R4. cbn [tbind]. rewrite R5. cbn [tbind].
    assert (LG : n5 + 4 = length (a_ands (theAig gEI gET gSI gST v2 v5 gs1 gs2 gs4 gs5))).
    { destruct Y1 as (_ & A1 & _), Y2 as (_ & A2 & _), Y4 as (_ & A4 & _), Y5 as (_ & A5 & _). cbn [a_ands theAig]. rewrite !app_length. cbn [length monG]. lia. }
    assert (LI : length dv = length (a_inputs (theAig gEI gET gSI gST v2 v5 gs1 gs2 gs4 gs5))).
    { rewrite LV. cbn [theAig a_inputs length]. rewrite inputLits_length. reflexivity. }
    assert (LL : length dv + 2 = length (a_latches (theAig gEI gET gSI gST v2 v5 gs1 gs2 gs4 gs5))).
    { rewrite LV. cbn [theAig a_latches length]. rewrite app_length, latchPairs_length. cbn [length]. unfold K. lia. }
    unfold outText. rewrite <- LG, <- LI, <- LL. f_equal. f_equal. f_equal. f_equal.
    cbn [theAig a_inputs a_latches a_outputs a_ands]. rewrite !map_app. cbn [map]. rewrite !map_app. cbn [map fst snd].
    rewrite !monitor_gl.
    replace ((2 + K) * 2 + 4) with ((K + 4) * 2) by lia. replace ((2 + K) * 2 + 2) with ((K + 3) * 2) by lia. replace ((2 + K) * 2 + 6) with ((K + 5) * 2) by lia.
    rewrite !flip_2. replace (2 + K + 3) with (K + 5) by lia.
    replace (v2 * 2 + 2) with ((v2 + 1) * 2) by lia. replace (v5 * 2 + 3) with (S ((v5 + 1) * 2)) by lia.
    rewrite <- !app_assoc. cbn [app]. rewrite <- !app_assoc. reflexivity.
  Qed.
End FILE.
