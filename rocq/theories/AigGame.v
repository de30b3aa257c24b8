(** * Proofs about the translation to circuits: realizability *)

From Coq Require Import String Ascii List Bool Arith NArith ZArith Lia Permutation.
From Verif Require Import Spec FormulaSpec FileSpec GameExt Parser ParserProofs FileProofs
  MinCore MonoProofs MinCoreProofs Aig AigSpec AigProofs AigFile AigRun AigMain.
Import ListNotations.
Local Open Scope string_scope.
Local Open Scope list_scope.

(** ** Violations *)

Lemma objective_never g pi : g_liveA g = [] -> g_liveG g = [] ->
  (objective g pi <-> forall t, ~ violated_at g pi t).
Proof.
  intros EA EG. split.
  - intros O [|t] [HI HV]; destruct (O HI) as [H1 [H2 _]]; [congruence|]. destruct HV as [H3 H4]. specialize (H2 t H3). congruence.
  - intros N HI. split.
    + destruct (g_initS g (pi 0)) eqn:E; auto. now elim (N 0).
    + split.
      * intros n Hn. destruct (g_safeS g (pi n) (pi (S n))) eqn:E; auto. now elim (N (S n)).
      * intros _ _ p Hp. rewrite EG in Hp. destruct Hp.
Qed.

Section GAME.
  Variable L : items.
  Variable fs : section -> list fml.
  Hypothesis ND : NoDup (declared L).
  Hypothesis F : formulas_of true L fs.
  Hypothesis SO : safety_only L.
  Hypothesis NC : forall w, In w (linesOf SInput L) -> prefix "controllable_" w = false.

  Definition DA : items := map (pair SInput) (linesOf SInput L) ++ map (pair SOutput) (linesOf SOutput L).
  Lemma sameDA p : In p (decls L) <-> In p DA.
  Proof. split; apply Permutation_in; [|apply Permutation_sym]; apply decls_perm. Qed.
  Lemma sameDA' p : In p DA <-> In p (decls L).
  Proof. symmetry. apply sameDA. Qed.
  Lemma namesDA : map snd DA = inputNames L.
  Proof. unfold DA, inputNames. rewrite map_app, !map_map. cbn [snd]. now rewrite !map_id. Qed.
  Lemma NDA : NoDup (map snd DA).
  Proof. eapply Permutation_NoDup; [|apply (decls_NoDup _ ND)]. rewrite namesDA. apply names_perm. Qed.

  Notation sg := (moveTo (decls L) DA).
  Notation tu := (moveTo DA (decls L)).
  Notation g := (file_game L fs).
  Notation g' := (input_game (input_names L)).

  Lemma names_nth j : nth j (input_names L) "" =
    match nth_error DA j with Some (SOutput, w) => ("controllable_" ++ w)%string | Some (_, w) => w | None => "" end.
  Proof.
    assert (E : input_names L = map (fun p => match p with (SOutput, w) => ("controllable_" ++ w)%string | (_, w) => w end) DA).
    { unfold input_names, DA. rewrite map_app, !map_map. now rewrite map_id. }
    rewrite E. clear E. revert j. induction DA as [|[s w] l IH]; intros [|j]; cbn [map nth nth_error]; auto; destruct s; reflexivity.
  Qed.
  Lemma prefix_app a b : prefix a (a ++ b) = true.
  Proof. induction a; cbn; [now destruct b|]. now destruct (ascii_dec a a). Qed.
  Lemma control_nth j : controllable (input_names L) j = match nth_error DA j with Some p => sec_eqb (fst p) SOutput | None => false end.
  Proof.
    unfold controllable. rewrite names_nth. destruct (nth_error DA j) as [[s w]|] eqn:E; [|reflexivity].
    apply nth_error_In in E. unfold DA in E. rewrite in_app_iff, !in_map_iff in E.
    destruct E as [(x & E & I)|(x & E & I)]; injection E as <- <-; cbn [fst sec_eqb].
    - now rewrite NC.
    - apply prefix_app.
  Qed.
  Lemma out_nth k : g_out g k = match nth_error (decls L) k with Some p => sec_eqb (fst p) SOutput | None => false end.
  Proof.
    cbn [file_game g_out]. rewrite outputs_decls. generalize (decls L) k. induction i as [|p D IH]; intros [|j]; cbn; auto.
  Qed.
  Lemma out_sg k : g_out g' (sg k) = g_out g k.
  Proof.
    rewrite out_nth. cbn [input_game g_out]. rewrite control_nth. destruct (nth_error (decls L) k) as [p|] eqn:E.
    - now rewrite (moveTo_nth _ _ NDA sameDA _ _ E).
    - now rewrite (moveTo_over _ _ (decls_NoDup _ ND) NDA sameDA _ E).
  Qed.
  Lemma out_tu j : g_out g (tu j) = g_out g' j.
  Proof.
    rewrite out_nth. cbn [input_game g_out]. rewrite control_nth. destruct (nth_error DA j) as [p|] eqn:E.
    - now rewrite (moveTo_nth _ _ (decls_NoDup _ ND) sameDA' _ _ E).
    - now rewrite (moveTo_over _ _ NDA (decls_NoDup _ ND) sameDA' _ E).
  Qed.
  Lemma back_sg k : tu (sg k) = k.
  Proof. apply moveTo_back; [apply (decls_NoDup _ ND)|apply NDA|apply sameDA]. Qed.
  Lemma back_tu j : sg (tu j) = j.
  Proof. apply moveTo_back; [apply NDA|apply (decls_NoDup _ ND)|apply sameDA']. Qed.

  Lemma input_at j k w : nth_error (inputNames L) j = Some w -> nth_error (declared L) (2 * k) = Some w -> j = sg k.
  Proof.
    intros H1 H2. rewrite declared_decls, nth_decl_even in H2. destruct (nth_error (decls L) k) as [p|] eqn:E; [|discriminate]. injection H2 as <-.
    pose proof (map_nth_error snd _ _ (moveTo_nth _ _ NDA sameDA _ _ E)) as H3. rewrite namesDA in H3.
    pose proof NDA as N. rewrite namesDA, NoDup_nth_error in N. apply N; [|congruence]. apply nth_error_Some. congruence.
  Qed.

  Variable A : aig.
  Variable err : nat.
  Hypothesis Outs : a_outputs A = [err].
  Hypothesis Err : forall r pi, is_run A r -> shows L A r pi -> forall t, lit (r t) err = true <-> violated_at g pi t.
  Hypothesis WF : exists M, well_formed M A.

  Lemma shows_of r (y : nat -> state) : with_inputs A r y -> shows L A r (fun n k => y n (sg k)).
  Proof. intros W t j k w l H1 H2 H3. rewrite <- (input_at j k w H1 H2). now apply W. Qed.

  Lemma never_objective r pi : is_run A r -> shows L A r pi -> (never_raised A r <-> objective g pi).
  Proof.
    destruct SO as [NE NS]. assert (LA : g_liveA g = []).
    { cbn [file_game g_liveA]. pose proof (F SEnvLive eq_refl) as H. rewrite NE in H. now inversion H. }
    assert (LG : g_liveG g = []).
    { cbn [file_game g_liveG]. pose proof (F SSysLive eq_refl) as H. rewrite NS in H. now inversion H. }
    intros R S. rewrite (objective_never g pi LA LG). unfold never_raised. rewrite Outs. split.
    - intros N t V. apply (Err r pi R S) in V. rewrite (N t err) in V by now left. discriminate.
    - intros N t o [<-|[]]. destruct (lit (r t) err) eqn:E; auto. apply (Err r pi R S) in E. now elim (N t).
  Qed.

  Notation N := (length (outputs L)).

  Lemma to_aig : realizable g -> aig_realizable A (input_names L).
  Proof.
    intros [f H]. exists (renamed g N sg tu f). intros x r R W. apply (never_objective r _ R (shows_of r _ W)).
    eapply file_agree; [exact F| |apply (H (fun m => norm g N (pull sg (x m))))].
    apply (play_renamed g g' N sg tu back_sg out_sg).
  Qed.

  Lemma to_aig_un : (forall f, exists x, ~ objective g (play g f x)) -> aig_unrealizable A (input_names L).
  Proof.
    intros H f. destruct (H (renamed g' N tu sg f)) as (x & Hx).
    set (y := play g' f (fun m => norm g' N (pull tu (x m)))).
    destruct WF as (M & WM). destruct (run_exists M A y WM) as (r & R & W). exists (fun m => norm g' N (pull tu (x m))), r.
    split; auto. split; auto. intros NV. apply Hx. apply (never_objective r _ R (shows_of r y W)) in NV.
    eapply file_agree; [exact F| |exact NV]. intros n k Hk.
    assert (Hs : sg k < N).
    { rewrite outputs_decls, map_length in *. apply nth_error_Some in Hk. destruct (nth_error (decls L) k) as [p|] eqn:E; [|now elim Hk].
      rewrite (same_length (decls L) DA); [|apply (decls_NoDup _ ND)|apply NDA|apply sameDA].
      apply nth_error_Some. rewrite (moveTo_nth _ _ NDA sameDA _ _ E). discriminate. }
    pose proof (play_renamed g' g N tu sg back_tu out_tu f x n (sg k) Hs) as P. unfold pull in P at 1. rewrite back_sg in P. exact P.
  Qed.

  Lemma aig_not_both : aig_realizable A (input_names L) -> aig_unrealizable A (input_names L) -> False.
  Proof. intros [f H] U. destruct (U f) as (x & r & R & W & NV). apply NV. eapply H; eauto. Qed.
End GAME.

(** ** Files *)

Lemma gram_formulas L : grammatical L -> exists fs, formulas_of false L fs.
Proof.
  intros G.
  assert (X : forall s, formulaSection s = true -> exists l, Forall2 (fun line f => gram (file_var L s) maxNumber false 0 f (words line)) (linesOf s L) l).
  { intros s Hs. assert (H : forall line, In line (linesOf s L) -> exists f, gram (file_var L s) maxNumber false 0 f (words line)).
    { intros line Hl. apply in_linesOf in Hl. apply in_split in Hl. destruct Hl as (L1 & L2 & E).
      destruct (G L1 s line L2 E Hs) as (f & Gf). exists f. revert Gf. apply gram_var_ext. intros w i [H1 H2]. split.
      - rewrite E, declared_app, nth_error_app1; auto. apply nth_error_Some. congruence.
      - rewrite E, outputs_app, app_nth1; auto. rewrite outputs_decls, map_length. rewrite declared_decls in H1.
        apply nth_error_Some. intros N. assert (Ei : i = 2 * Nat.div2 i \/ i = 2 * Nat.div2 i + 1).
        { rewrite (Nat.div2_odd i) at 1 3. destruct (Nat.odd i); cbn; lia. }
        destruct Ei as [Ei|Ei]; rewrite Ei in H1; [rewrite nth_decl_even in H1|rewrite nth_decl_odd in H1]; rewrite N in H1; discriminate. }
    revert H. generalize (linesOf s L). induction l as [|line l IH]; intros H; [exists []; constructor|].
    destruct (H line (or_introl eq_refl)) as (f & Hf). destruct IH as (fl & Hfl); [intros; apply H; now right|].
    exists (f :: fl). now constructor. }
  destruct (X SEnvInit eq_refl) as (l1 & H1), (X SSysInit eq_refl) as (l2 & H2), (X SEnvTrans eq_refl) as (l3 & H3),
    (X SSysTrans eq_refl) as (l4 & H4), (X SEnvLive eq_refl) as (l5 & H5), (X SSysLive eq_refl) as (l6 & H6).
  exists (fun s => match s with SEnvInit => l1 | SSysInit => l2 | SEnvTrans => l3 | SSysTrans => l4 | SEnvLive => l5 | SSysLive => l6 | _ => [] end).
  intros [] Hs; try discriminate Hs; assumption.
Qed.

Lemma violated_same L fs fs' pi t : (forall s, formulaSection s = true -> fs s = fs' s) ->
  violated_at (file_game L fs) pi t <-> violated_at (file_game L fs') pi t.
Proof.
  intros E. unfold violated_at, file_game. cbn [g_initE g_initS g_safeE g_safeS].
  rewrite !(E SEnvInit eq_refl), !(E SSysInit eq_refl), !(E SEnvTrans eq_refl), !(E SSysTrans eq_refl). tauto.
Qed.

(** ** The text describes one circuit *)

Lemma numbers_fun line ns ns' : numbers line ns -> numbers line ns' -> ns = ns'.
Proof.
  unfold numbers. intros H. revert ns'. induction H as [|w n ws ns H1 H2 IH]; intros ns' H'; inversion H' as [|a b c d H3 H4]; subst; auto.
  f_equal; auto. destruct H1 as (_ & _ & E1), H3 as (_ & _ & E2). apply Nat2N.inj. congruence.
Qed.
Lemma numbers_lines {X : Type} (h : X -> list nat) (Hh : forall x y, h x = h y -> x = y) l l' : forall ls ls' rest rest',
  Forall2 (fun line x => numbers line (h x)) ls l -> Forall2 (fun line x => numbers line (h x)) ls' l' ->
  length l = length l' -> ls ++ rest = ls' ++ rest' -> l = l' /\ rest = rest'.
Proof.
  revert l'. induction l as [|x l IH]; intros [|x' l'] ls ls' rest rest' H H' EL E; try discriminate.
  - inversion H; inversion H'; subst; auto.
  - inversion H as [|l1 p1 r1 q1 W H2]; subst. inversion H' as [|l2 p2 r2 q2 W' H2']; subst. cbn [app] in E. injection E as -> E.
    assert (EL' : length l = length l') by (cbn in EL; lia).
    destruct (IH l' _ _ _ _ H2 H2' EL' E) as [-> ->]. split; auto. f_equal. apply Hh. eapply numbers_fun; eauto.
Qed.
Lemma digits_cut w w' a a' : allDigits w = true -> allDigits w' = true -> (w ++ String " " a = w' ++ String " " a')%string -> a = a'.
Proof.
  revert w'. induction w as [|x w IH]; intros [|y w'] H H' E; cbn in *.
  - now injection E.
  - injection E as <- E. discriminate H'.
  - injection E as -> E. discriminate H.
  - injection E as <- E. apply andb_true_iff in H, H'. apply (IH w'); tauto.
Qed.
Lemma symbols_fun names : forall k names' ls ls' rest rest',
  Forall2 (fun line p => exists w, numeral w (N.of_nat (fst p)) /\ line = ("i" ++ w ++ " " ++ snd p)%string) ls (combine (seq k (length names)) names) ->
  Forall2 (fun line p => exists w, numeral w (N.of_nat (fst p)) /\ line = ("i" ++ w ++ " " ++ snd p)%string) ls' (combine (seq k (length names')) names') ->
  length names = length names' -> ls ++ rest = ls' ++ rest' -> names = names'.
Proof.
  induction names as [|x names IH]; intros k [|x' names'] ls ls' rest rest' H H' EL E; try discriminate; auto.
  cbn [length seq combine] in *. inversion H as [|l1 p1 r1 q1 (w & (_ & W1 & _) & W2) H2]; subst.
  inversion H' as [|l2 p2 r2 q2 (w' & (_ & W1' & _) & W2') H2']; subst. cbn [app] in E. injection E as E1 E2. cbn [snd] in E1.
  f_equal.
  - eapply digits_cut; [exact W1|exact W1'|exact E1].
  - eapply IH; [exact H2|exact H2'|lia|exact E2].
Qed.

Lemma text_unique M A names M' A' names' lines : aag_text M A names lines -> aag_text M' A' names' lines -> M = M' /\ A = A' /\ names = names'.
Proof.
  intros (hdr & li & ll & lo & la & sym & rest & E & (nums & Eh & HN) & HI & HL & HO & HA & LN & HS)
         (hdr' & li' & ll' & lo' & la' & sym' & rest' & E' & (nums' & Eh' & HN') & HI' & HL' & HO' & HA' & LN' & HS').
  subst lines hdr hdr'. injection E' as E1 E2. subst nums'. pose proof (numbers_fun _ _ _ HN HN') as EN. injection EN as -> L1 L2 L3 L4.
  destruct A as [ai al ao aa], A' as [ai' al' ao' aa']. cbn [a_inputs a_latches a_outputs a_ands] in *.
  destruct (numbers_lines (fun l => [l]) ltac:(intros x y Q; now injection Q) _ _ _ _ _ _ HI HI' L1 E2) as [-> E3].
  destruct (numbers_lines (fun l : nat * nat => [fst l; snd l]) ltac:(intros [] [] Q; cbn in Q; congruence) _ _ _ _ _ _ HL HL' L2 E3) as [-> E4].
  destruct (numbers_lines (fun l => [l]) ltac:(intros x y Q; now injection Q) _ _ _ _ _ _ HO HO' L3 E4) as [-> E5].
  destruct (numbers_lines (fun l : nat * nat * nat => [fst (fst l); snd (fst l); snd l]) ltac:(intros [[] ] [[] ] Q; cbn in Q; congruence) _ _ _ _ _ _ HA HA' L4 E5) as [-> E6].
  split; auto. split; auto. eapply symbols_fun; [exact HS|exact HS'|congruence|exact E6].
Qed.
