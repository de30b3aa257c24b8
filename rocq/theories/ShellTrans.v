(** * The interactive shell: XSTRATEGYTRANSITION *)

From Coq Require Import String Ascii NArith ZArith Arith List Bool Lia.
From Verif Require Import BDD Loop Spec VarTypes Synth Sem FixBase GameSound SynthProofs Verdict Solvers SolversProofs
  AutSpec Explicit DetProofs ExplicitProofs ExplicitGame CounterSpec Counter CounterData CounterExtract CoopProofs Parser ParserProofs FormulaSpec ShellSpec Shell ShellText ShellProofs ShellSafe ShellMarks ShellMove.
Import ListNotations.
Local Open Scope list_scope.

Local Arguments isOut : simpl never.

(** ** Reading *)
Lemma readBits_before vars p f rest i : length p = length vars -> Forall (fun a => isspace a = false) p ->
  before (charsText p ++ rest)%string i -> exists i', readBits vars f i = Next (givens vars p f, i') /\ before rest i'.
Proof.
  intros HL HP Hi. destruct vars as [|v vars].
  - destruct p; [|discriminate]. exists i. auto.
  - exists (mkStream rest false false). split; [|constructor].
    rewrite <- readBits_chars by auto. inversion Hi; subst; [reflexivity|].
    destruct p as [|a p]; [discriminate|]. inversion HP; subst. cbn [charsText append readBits].
    assert (E : forall s, readChar (mkStream (newline ++ String a s)%string false false) = readChar (mkStream (String a s) false false)) by reflexivity.
    cbn [append newline] in *. now rewrite E.
Qed.

Definition bitChars (l : list bool) : list ascii := map (fun b : bool => if b then "1"%char else "0"%char) l.
Lemma bitsText_chars l : bitsText l = charsText (bitChars l).
Proof. induction l as [|[|] l IH]; cbn; f_equal; auto. Qed.
Lemma bitChars_space l : Forall (fun a => isspace a = false) (bitChars l).
Proof. apply Forall_map, Forall_forall. now intros [|] _. Qed.

Lemma givens_bits vars : forall l e, length l = length vars ->
  eval (givens vars (bitChars l) btrue) e = true <-> map e vars = l.
Proof.
  intros l e HL. rewrite givens_spec by (unfold bitChars; now rewrite map_length). rewrite eval_true.
  revert l HL. induction vars as [|v vars IH]; intros [|b l] HL; try discriminate.
  - split; auto. intros _. split; auto. constructor.
  - injection HL as HL. specialize (IH l HL). cbn [map bitChars]. split.
    + intros [_ H]. inversion H; subst. f_equal; [|apply IH; auto].
      destruct b; [now apply H3|now apply H3].
    + intros E. injection E as E1 E2. split; auto. constructor; [|now apply IH].
      destruct b; split; intros X; auto; discriminate.
Qed.

Section TRANS.
  Variable c : ctx.
  Hypothesis Hwf : wf c.
  Let Hk := wf_kinds c Hwf.
  Local Notation N := (nvars c).
  Local Notation any := (dep (isAnyV c)).
  Variable s : state.

  Definition fromS : BF := givens (varsT c PreInput ++ varsT c PreOutput) (bitChars (valuesOf c s)) btrue.

  Lemma trans_fromS s' t : trans fromS s' t = true <-> same N s' s.
  Proof.
    unfold fromS, trans. rewrite (preShell c Hk). rewrite givens_bits by (unfold valuesOf; now rewrite !map_length).
    rewrite map_map. assert (E : map (fun k => tv s' t (2 * k)) (shellVars c) = valuesOf c s').
    { apply map_ext. intros k. apply tv_even. }
    rewrite E. apply (valuesOf_same c).
  Qed.

  Lemma any_fromS : any fromS.
  Proof.
    unfold fromS. apply dep_givens; [apply dep_true|]. intros v Hv. rewrite (preShell c Hk) in Hv. apply in_map_iff in Hv.
    destruct Hv as (k & <- & Hin). apply (in_shellVars c) in Hin. unfold isAnyV. rewrite (nvars_spec c Hk). lia.
  Qed.

  Variable p : list ascii.
  Hypothesis HL : length p = length (shellVars c).
  Definition forcedP : BF := givens (varsT c PostInput ++ varsT c PostOutput) p btrue.

  Lemma trans_forcedP s' t : trans forcedP s' t = true <-> fits (shellVars c) p t.
  Proof.
    unfold forcedP, trans. rewrite (postShell c Hk), givens_spec by now rewrite map_length. rewrite eval_true. unfold fits.
    assert (X : forall l p, Forall2 (fun v a => (a = "0"%char -> tv s' t v = false) /\ (a = "1"%char -> tv s' t v = true)) (map (fun k => 2 * k + 1) l) p
      <-> Forall2 (fun k a => (a = "0"%char -> t k = false) /\ (a = "1"%char -> t k = true)) l p).
    { clear. induction l as [|k l IH]; intros p; split; intros H; inversion H; subst; constructor; try (now apply IH).
      - rewrite <- (tv_odd s' t k). assumption.
      - now rewrite tv_odd. }
    rewrite X. tauto.
  Qed.

  Lemma any_forcedP : any forcedP.
  Proof.
    unfold forcedP. apply dep_givens; [apply dep_true|]. intros v Hv. rewrite (postShell c Hk) in Hv. apply in_map_iff in Hv.
    destruct Hv as (k & <- & Hin). apply (in_shellVars c) in Hin. unfold isAnyV. rewrite (nvars_spec c Hk). lia.
  Qed.

  Definition base : BF := band (band fromS (safetyEnv c)) forcedP.
  Definition transLevel (l : list BF) : BF := fold_left band l base.
  Definition atNext (l : list BF) (t : state) : Prop := fits (shellVars c) p t /\ Forall (fun f => trans f s t = true) l.

  Lemma any_base : any base.
  Proof. unfold base. repeat apply dep_and; auto using any_fromS, any_forcedP. apply isPrePostIn_isAny, wf_safetyEnv; auto. Qed.

  Lemma any_transLevel l : Forall any l -> any (transLevel l).
  Proof.
    unfold transLevel. pose proof any_base as D. revert D. generalize base. intros b D H. revert b D.
    induction H as [|f l Hf _ IH]; intros b D; auto. cbn [fold_left]. apply IH. now apply dep_and.
  Qed.

  Lemma fold_band_trans l : forall b s' t, trans (fold_left band l b) s' t = true <-> trans b s' t = true /\ Forall (fun f => trans f s' t = true) l.
  Proof.
    induction l as [|f l IH]; intros b s' t; cbn [fold_left].
    - split; [intros; split; auto; constructor|tauto].
    - rewrite IH, trans_and, andb_true_iff. split.
      + intros [[H1 H2] H3]. auto.
      + intros [H1 H2]. inversion H2; subst; auto.
  Qed.

  Lemma ext_any f s' t s1 t1 : any f -> same N s' s1 -> same N t t1 -> trans f s' t = trans f s1 t1.
  Proof. intros D H1 H2. now apply (trans_ext c Hk). Qed.

  Lemma trans_level l s' t : Forall any l ->
    trans (transLevel l) s' t = true <-> same N s' s /\ atNext (safetyEnv c :: l) t.
  Proof.
    intros Hl. unfold transLevel. rewrite fold_band_trans. unfold base, atNext.
    rewrite !trans_and, !andb_true_iff, trans_fromS, trans_forcedP.
    assert (E : same N s' s -> forall f, any f -> trans f s' t = trans f s t) by (intros H f D; apply ext_any; auto; now intros k _).
    assert (De : any (safetyEnv c)) by (apply isPrePostIn_isAny, wf_safetyEnv; auto).
    split.
    - intros [[[H1 H2] H3] H4]. split; auto. split; auto. constructor; [rewrite <- (E H1); auto|].
      rewrite Forall_forall in *. intros f Hin. rewrite <- (E H1); auto.
    - intros (H1 & H2 & H3). inversion H3 as [|x y H4 H5]; subst. split; [split; [split; auto|auto]|]; [rewrite (E H1); auto|].
      rewrite Forall_forall in *. intros f Hin. rewrite (E H1); auto.
  Qed.

  Lemma isFalse_level l : Forall any l -> isFalse (transLevel l) = false <-> exists t, atNext (safetyEnv c :: l) t.
  Proof.
    intros Hl. rewrite isFalse_false. split.
    - intros (e & He). rewrite eval_trans in He. apply trans_level in He; auto. destruct He as [_ He]. eauto.
    - intros (t & Ht). exists (tv s t). apply (trans_level l s t Hl). split; auto. now intros k _.
  Qed.

  Definition levelsForT (l : list (ascii * ascii * list BF)) : list (ascii * ascii * BF) :=
    map (fun e => (fst e, transLevel (snd e))) l.
  Definition levelsOfT (l : list (ascii * ascii * list BF)) : list (ascii * ascii * (state -> Prop)) :=
    map (fun e => (fst e, atNext (safetyEnv c :: snd e))) l.

  Lemma forces_next l k b : Forall any l -> forcesB (transLevel l) (2 * k + 1) b <-> forces (atNext (safetyEnv c :: l)) k b.
  Proof.
    intros Hl. unfold forcesB, forces. split.
    - intros H t Ht. specialize (H (tv s t)). rewrite tv_odd in H. apply H. apply (trans_level l s t Hl). split; auto. now intros j _.
    - intros H e He. rewrite eval_trans in He. apply trans_level in He; auto. destruct He as [_ He]. exact (H _ He).
  Qed.

  Lemma marked_next ls e out : Forall (fun l => Forall any (snd l)) ls ->
    Forall2 (fun v m => markB (levelsForT ls) v (e v) m) (map (fun k => 2 * k + 1) (shellVars c)) out ->
    marked (shellVars c) (levelsOfT ls) (fun k => e (2 * k + 1)) out.
  Proof.
    intros HD. unfold marked. revert out. generalize (shellVars c) as vs. induction vs as [|k vs IH]; intros out H'.
    - inversion H'; subst; constructor.
    - inversion H' as [|? ? ? ? H1 H2]; subst. constructor; auto. clear H2 IH H'.
      cbn beta in *. induction HD as [|[[lo up] l] ls Hl _ IH]; auto. cbn [levelsForT levelsOfT map fst snd markB markOf] in *.
      destruct H1 as [[H2 H3]|[H2 H3]]; [left|right].
      + split; auto. now apply forces_next.
      + split; auto. intros (b' & H4). apply H2. exists b'. now apply forces_next.
  Qed.

  (** Filling a level, with a further restriction [r]. *)
  Lemma fill_next ls l : proper (levelsForT ls) -> Forall any l -> Forall (fun x => Forall any (snd x)) ls ->
    Forall (fun x => exists l', l = snd x ++ l') ls -> isFalse (transLevel l) = false ->
    exists out f t, fill (transLevel l) (varsT c PostInput ++ varsT c PostOutput)
        (map (letter (levelsForT ls)) (varsT c PostInput ++ varsT c PostOutput)) = Next (out, f) /\
      atNext (safetyEnv c :: l) t /\ marked (shellVars c) (levelsOfT ls) t out /\
      forall s' t', trans f s' t' = true <-> same N s' s /\ same N t' t.
  Proof.
    intros HP HD HD' HF HN.
    assert (X : forall e, eval (transLevel l) e = true -> Forall (fun x => eval (snd x) e = true) (levelsForT ls)).
    { intros e He. unfold levelsForT. apply Forall_map. cbn [snd]. rewrite Forall_forall in HF |- *. intros x Hx.
      destruct (HF x Hx) as (l' & ->). unfold transLevel in He |- *. rewrite fold_left_app in He.
      revert He. clear. generalize (fold_left band (snd x) base). induction l' as [|a l' IH]; intros g; auto.
      cbn [fold_left]. intros H. apply IH in H. rewrite eval_and in H. now apply andb_true_iff in H. }
    destruct (fill_marks _ _ (varsT c PostInput ++ varsT c PostOutput) HP HN X) as (out & f' & e & E & H1 & H2 & H3).
    exists out, f', (fun k => e (2 * k + 1)). split; auto.
    pose proof H1 as H4. rewrite eval_trans in H4. apply trans_level in H4; auto. destruct H4 as [H4 H5]. split; auto. split.
    - apply marked_next; auto. now rewrite <- (postShell c Hk).
    - intros s' t'. unfold trans. rewrite H2. fold (trans (transLevel l) s' t'). rewrite trans_level by auto. rewrite (postShell c Hk). split.
      + intros [[A1 A2] A3]. split; auto. intros k Hk'. rewrite <- (A3 (2 * k + 1)); [now rewrite tv_odd|].
        apply in_map_iff. exists k. split; auto. now apply (in_shellVars c).
      + intros [A1 A2]. split; [split; auto|].
        * rewrite eval_trans in H1. assert (T : trans (transLevel l) s t' = true).
          { rewrite <- H1. apply ext_any; auto; [now apply any_transLevel|]. apply same_sym. exact H4. }
          apply trans_level in T; tauto.
        * intros v Hv. apply in_map_iff in Hv. destruct Hv as (k & <- & Hin). apply (in_shellVars c) in Hin.
          rewrite tv_odd. now apply A2.
  Qed.

  (** The comparison of functions. *)
  Lemma blt_advances f q t : any q -> (forall s' t', trans f s' t' = true <-> same N s' s /\ same N t' t) ->
    blt f q = true <-> advances N (trans q) s t.
  Proof.
    intros Dq Hf. unfold blt. unfold advances. rewrite andb_true_iff, bleq_spec, negb_true_iff. split.
    - intros [H1 H2]. split.
      + apply (H1 (tv s t)). apply (Hf s t). split; now intros k _.
      + destruct (isFalse (band q (bnot f))) eqn:EF.
        * exfalso. assert (f = q); [|subst; now rewrite bf_eqb_refl in H2].
          apply trans_inj. intros s' t'. apply eq_true_iff_eq. split; [apply H1|]. intros Hq.
          rewrite isFalse_spec in EF. specialize (EF (tv s' t')). rewrite eval_and, eval_not in EF. unfold trans in Hq |- *. rewrite Hq in EF.
          cbn in EF. now apply negb_false_iff in EF.
        * apply isFalse_false in EF. destruct EF as (e & EF). rewrite eval_trans, trans_and, trans_not, andb_true_iff, negb_true_iff in EF.
          destruct EF as [E1 E2]. do 2 eexists. split; [exact E1|]. intros H3. apply Hf in H3. congruence.
    - intros [H1 (s' & t' & H2 & H3)]. split.
      + intros e He. rewrite eval_trans in He |- *. apply Hf in He. rewrite <- H1. apply ext_any; tauto.
      + destruct (bf_eqb f q) eqn:E; auto. apply bf_eqb_eq in E. subst q. apply Hf in H2. contradiction.
  Qed.
End TRANS.

(** ** One command *)
Lemma nthN_nth {A} (l : list A) k d : k < length l -> nthN l (N.of_nat k) = Some (nth k l d).
Proof.
  intros H. rewrite nthN_spec, Nat2N.id. now apply nth_error_nth'.
Qed.

Lemma number_next n i : 0 < n -> i < n -> (N.of_nat n <= uintBound)%N ->
  N.to_nat (((N.of_nat i + 1) mod uintBound) mod N.of_nat n)%N = (i + 1) mod n.
Proof.
  intros Hn Hi HU. destruct (N.eq_dec (N.of_nat i + 1) uintBound) as [E|E].
  - rewrite E, N.mod_same by discriminate. rewrite N.mod_0_l by lia.
    assert (i + 1 = n) by lia. subst n. now rewrite Nat.mod_same by lia.
  - rewrite (N.mod_small _ uintBound) by lia. rewrite N2Nat.inj_mod, N2Nat.inj_add, !Nat2N.id. reflexivity.
Qed.

Section CASES.
  Variable c : ctx.
  Hypothesis Hwf : wf c.
  Let Hk := wf_kinds c Hwf.
  Local Notation NV := (nvars c).
  Local Notation any := (dep (isAnyV c)).
  Variable s : state.
  Variable p : list ascii.
  Hypothesis HL : length p = length (shellVars c).
  Local Notation A l := (atNext c s p (safetyEnv c :: l)).
  Local Notation asms := (map trans (livenessAssumptions c)).
  Local Notation guas := (map trans (livenessGuarantees c)).

  Definition alive (t : state) : Prop := exists u, trans (safetyEnv c) t u = true /\ trans (safetySys c) t u = true.
  Definition caseOf (r : bool) (f2 f3 : BF) (a g : nat) (q : reply) : Prop :=
    let L2 := if r then ("g"%char, "G"%char, [f2]) else ("s"%char, "S"%char, [f2]) in
    let L3 := if r then ("s"%char, "S"%char, [f2; f3]) else ("g"%char, "G"%char, [f2; f3]) in
    let L1 := ("a"%char, "A"%char, []) in
    match q with
    | RFailAssumptions => ~ exists t, A [] t
    | RForced => if r then (exists t, A [f2] t) /\ ~ exists t, A [f2; f3] t else (exists t, A [] t) /\ ~ exists t, A [f2] t
    | RFailGuarantees l n => n = Some (a, g) /\
        if r then ~ (exists t, A [f2] t) /\ exists t, A [] t /\ marked (shellVars c) (levelsOfT c s p [L1]) t l
        else ~ (exists t, A [f2; f3] t) /\ exists t, A [f2] t /\ marked (shellVars c) (levelsOfT c s p [L1; L2]) t l
    | RMarks l n => exists t, A [f2; f3] t /\ marked (shellVars c) (levelsOfT c s p [L1; L2; L3]) t l /\
        (exists a' g', n = Some (a', g') /\ nextNumber NV asms s t a a' /\ nextNumber NV guas s t g g') /\
        ((exists t', A [f2; f3] t' /\ alive t') -> alive t)
    | _ => False
    end.


  Lemma transition_cases t f2 f3 a g : any f2 -> any f3 ->
    a < length (livenessAssumptions c) -> g < length (livenessGuarantees c) ->
    (N.of_nat (length (livenessAssumptions c)) <= uintBound)%N -> (N.of_nat (length (livenessGuarantees c)) <= uintBound)%N ->
    (if t_realizable t then Some (safetySys c) else nthN (t_strategies t) (N.of_nat a)) = Some f2 ->
    (if t_realizable t then nthN (t_strategies t) (N.of_nat g) else Some (safetySys c)) = Some f3 ->
    exists q, strategyTransition c t (fromS c s) (forcedP c p) (N.of_nat a) (N.of_nat g) = Next q /\
      caseOf (t_realizable t) f2 f3 a g q.
  Proof.
    intros D2 D3 Ha Hg UA UG E2 E3. unfold strategyTransition. cbv zeta. rewrite E2, E3. unfold caseOf.
    set (vars := varsT c PostInput ++ varsT c PostOutput). set (r := t_realizable t).
    change (band (band (fromS c s) (safetyEnv c)) (forcedP c p)) with (transLevel c s p []).
    change (band (transLevel c s p []) f2) with (transLevel c s p [f2]).
    change (band (transLevel c s p [f2]) f3) with (transLevel c s p [f2; f3]).
    assert (EX : forall l, Forall any l -> isFalse (transLevel c s p l) = false <-> exists t, A l t) by (intros; now apply isFalse_level).
    assert (NX : forall l, Forall any l -> isFalse (transLevel c s p l) = true -> ~ exists t, A l t).
    { intros l Hl E H. apply EX in H; auto. congruence. }
    assert (PR : forall ls, Forall (fun e : ascii * ascii * list BF => fst (fst e) <> "."%char /\ snd (fst e) <> "."%char) ls -> proper (levelsForT c s p ls)).
    { intros ls H. unfold proper, levelsForT. apply Forall_map. exact H. }
    set (L1 := ("a"%char, "A"%char, @nil BF)).
    set (L2 := if r then ("g"%char, "G"%char, [f2]) else ("s"%char, "S"%char, [f2])).
    set (L3 := if r then ("s"%char, "S"%char, [f2; f3]) else ("g"%char, "G"%char, [f2; f3])).
    assert (P1 : proper (levelsForT c s p [L1])) by (apply PR; repeat constructor; discriminate).
    assert (P2 : proper (levelsForT c s p [L1; L2])) by (apply PR; unfold L1, L2; destruct r; repeat constructor; discriminate).
    assert (P3 : proper (levelsForT c s p [L1; L2; L3])) by (apply PR; unfold L1, L2, L3; destruct r; repeat constructor; discriminate).
    assert (S2 : snd L2 = [f2]) by (unfold L2; now destruct r).
    assert (S3 : snd L3 = [f2; f3]) by (unfold L3; now destruct r).
    rewrite noMarks_letter, (mark_letter []) by constructor. rewrite app_nil_l.
    change [("a"%char, "A"%char, transLevel c s p [])] with (levelsForT c s p [L1]).
    assert (M2 : (if r then mark (transLevel c s p [f2]) "g" "G" vars (map (letter (levelsForT c s p [L1])) vars)
                  else mark (transLevel c s p [f2]) "s" "S" vars (map (letter (levelsForT c s p [L1])) vars)) =
                 map (letter (levelsForT c s p [L1; L2])) vars).
    { unfold L2. destruct r; now rewrite mark_letter. }
    rewrite M2.
    assert (M3 : (if r then mark (transLevel c s p [f2; f3]) "s" "S" vars (map (letter (levelsForT c s p [L1; L2])) vars)
                  else mark (transLevel c s p [f2; f3]) "g" "G" vars (map (letter (levelsForT c s p [L1; L2])) vars)) =
                 map (letter (levelsForT c s p [L1; L2; L3])) vars).
    { unfold L3. destruct r; rewrite mark_letter by auto; unfold L2; reflexivity. }
    rewrite M3.
    assert (NU : Some (N.to_nat (N.of_nat a mod N.of_nat (length (livenessAssumptions c))), N.to_nat (N.of_nat g mod N.of_nat (length (livenessGuarantees c)))) = Some (a, g)).
    { now rewrite !N.mod_small, !Nat2N.id by lia. }
    rewrite NU.
    destruct (isFalse (transLevel c s p [])) eqn:F1.
    { exists RFailAssumptions. split; auto. }
    destruct (isFalse (transLevel c s p [f2])) eqn:F2.
    { destruct r eqn:Er.
      - destruct (fill_next c Hwf s p HL [L1] []) as (out & f & u & E & H1 & H2 & _); auto.
        { repeat constructor. } { repeat constructor. exists []. reflexivity. }
        fold vars in E. rewrite E. cbn [obind fst]. exists (RFailGuarantees out (Some (a, g))). split; auto.
        split; auto. split; [apply NX; auto|]. exists u. auto.
      - exists RForced. split; auto. split; [apply EX; auto|apply NX; auto]. }
    destruct (isFalse (transLevel c s p [f2; f3])) eqn:F3.
    { destruct r eqn:Er.
      - exists RForced. split; auto. split; [apply EX; auto|apply NX; auto].
      - destruct (fill_next c Hwf s p HL [L1; L2] [f2]) as (out & f & u & E & H1 & H2 & _); auto.
        { constructor; [constructor|]. constructor; [rewrite S2; auto|constructor]. }
        { constructor; [exists [f2]; reflexivity|]. constructor; [exists []; now rewrite S2|constructor]. }
        fold vars in E. rewrite E. cbn [obind fst]. exists (RFailGuarantees out (Some (a, g))). split; auto.
        split; auto. split; [apply NX; auto|]. exists u. auto. }
    set (safe := swapPrePost c (bexists (varCubePost c) (band (safetySys c) (safetyEnv c)))).
    assert (DSe : any (safetyEnv c)) by (apply isPrePostIn_isAny, wf_safetyEnv; auto).
    assert (DSs : any (safetySys c)) by now apply wf_safetySys.
    assert (DB : any (band (safetySys c) (safetyEnv c))) by now apply dep_and.
    assert (PS : dep (isPreV c) (bexists (varCubePost c) (band (safetySys c) (safetyEnv c)))) by now apply (pre_exPost c Hwf).
    assert (DS : any safe) by (apply dep_swapPrePost; auto; now apply isPre_isAny).
    assert (TS : forall u, trans safe s u = true <-> alive u).
    { intros u. unfold safe. rewrite trans_swap_pos by auto. rewrite exPost_pos by auto. unfold alive.
      split; intros (v & Hv); exists v; [rewrite trans_and, andb_true_iff in Hv; tauto|rewrite trans_and; apply andb_true_iff; tauto]. }
    assert (EC : band safe (transLevel c s p [f2; f3]) = transLevel c s p [f2; f3; safe]).
    { apply bf_ext. intros e. unfold transLevel. cbn [fold_left]. rewrite !eval_and. apply andb_comm. }
    rewrite EC.
    assert (DL : forall l, Forall any l -> Forall any (f2 :: f3 :: l)) by auto.
    assert (G : exists l, Forall any l /\ (if isFalse (transLevel c s p [f2; f3; safe]) then transLevel c s p [f2; f3] else transLevel c s p [f2; f3; safe])
        = transLevel c s p (f2 :: f3 :: l) /\ isFalse (transLevel c s p (f2 :: f3 :: l)) = false /\
        forall u, A (f2 :: f3 :: l) u -> (exists t', A [f2; f3] t' /\ alive t') -> alive u).
    { destruct (isFalse (transLevel c s p [f2; f3; safe])) eqn:F4.
      - exists []. repeat split; auto. intros u _ (u' & [H1 H2] & H3). exfalso. apply (NX [f2; f3; safe]) in F4; auto. apply F4.
        exists u'. split; auto. rewrite <- TS in H3. inversion H2 as [|x y K1 K2]; subst. inversion K2 as [|x y K3 K4]; subst.
        inversion K4; subst. auto 6.
      - exists [safe]. repeat split; auto. intros u [_ H] _. apply TS. inversion H as [|x y K1 K2]; subst. inversion K2 as [|x y K3 K4]; subst.
        inversion K4 as [|x y K5 K6]; subst. now inversion K6. }
    destruct G as (l & Dl & -> & F4 & HA).
    destruct (fill_next c Hwf s p HL [L1; L2; L3] (f2 :: f3 :: l)) as (out & f & u & E & H1 & H2 & H3); auto.
    { constructor; [constructor|]. constructor; [rewrite S2; auto|]. constructor; [rewrite S3; auto|constructor]. }
    { constructor; [eexists; reflexivity|]. constructor; [rewrite S2; now exists (f3 :: l)|].
      constructor; [rewrite S3; now exists l|constructor]. }
    fold vars in E. rewrite E. cbn [obind fst snd].
    rewrite (nthN_nth _ a bfalse Ha), (nthN_nth _ g bfalse Hg).
    eexists. split; [reflexivity|]. exists u. split.
    { destruct H1 as [K0 K]. split; auto. inversion K as [|x y K1 K2]; subst. inversion K2 as [|x y K3 K4]; subst.
      inversion K4; subst. auto. }
    split; auto. split; [|now apply HA].
    do 2 eexists. split; [reflexivity|].
    assert (X : forall qs i, i < length qs -> Forall any qs -> (N.of_nat (length qs) <= uintBound)%N ->
      nextNumber NV (map trans qs) s u i (N.to_nat ((if blt f (nth i qs bfalse) then (N.of_nat i + 1) mod uintBound else N.of_nat i) mod N.of_nat (length qs))%N)).
    { intros qs i Hi HD HU. unfold nextNumber. rewrite (nth_indep _ _ (trans bfalse)), map_nth, map_length by now rewrite map_length.
      assert (Di : any (nth i qs bfalse)) by (rewrite Forall_forall in HD; apply HD, nth_In, Hi).
      pose proof (blt_advances c Hwf s f (nth i qs bfalse) u Di H3) as HB.
      destruct (blt f (nth i qs bfalse)).
      - left. split; [now apply HB|]. apply number_next; auto. lia.
      - right. split; [intros H; apply HB in H; discriminate|]. rewrite N.mod_small by lia. apply Nat2N.id. }
    split; apply X; auto; [apply (wf_asm c Hwf)|apply (wf_gua c Hwf)].
  Qed.
End CASES.
