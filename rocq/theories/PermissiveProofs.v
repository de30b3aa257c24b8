(** * Proofs about permissive strategies *)

From Coq Require Import String Ascii Arith List Bool Lia.
From Verif Require Import FileSpec BDD Loop Spec VarTypes Synth Sem FixBase GameSound SynthProofs Verdict Solvers
  AutSpec OutputSpec Explicit DetProofs ExplicitProofs ExplicitGame OutputProofs Permissive.
Import ListNotations.
Open Scope list_scope.

Local Arguments isOut : simpl never.

Section PERM.
  Variable c : ctx.
  Hypothesis Hwf : wf c.
  Let Hk := wf_kinds c Hwf.
  Let HSe := wf_safetyEnv c Hwf.
  Local Notation N := (nvars c).
  Local Notation M := (length (livenessGuarantees c)).
  Local Notation g := (game_of c).
  Local Notation pre := (dep (isPreV c)).
  Local Notation any := (dep (isAnyV c)).

  (** All permitted inputs in [s] are covered by one of the sets. *)
  Definition covS (Fs : list BF) (s : state) : Prop :=
    forall x, trans (safetyEnv c) s x = true -> exists F y, In F Fs /\ trans F s (mrg c x y) = true.
  Definition open_of (Fs : list BF) (s t : state) : Prop :=
    exists p F q, Fs = p ++ F :: q /\ trans F s t = true /\ (p = [] \/ ~ covS p s).

  Record PInv (dn : list BF) (acc : BF * (BF * BF)) : Prop := mkPInv {
    p_any : any (fst acc) /\ any (fst (snd acc)) /\ any (snd (snd acc));
    p_sic1 : forall s t, trans (fst (snd acc)) s t = true -> exists F y, In F dn /\ trans F s (mrg c t y) = true;
    p_sic2 : forall s t F y, In F dn -> trans F s (mrg c t y) = true ->
      trans (fst (snd acc)) s t = true \/ trans (fst acc) s t = true;
    p_sic3 : forall s x t, trans (fst (snd acc)) s (mrg c x t) = trans (fst (snd acc)) s x;
    p_sc0 : forall s t t', trans (fst acc) s t = trans (fst acc) s t';
    p_sc1 : forall s t, trans (fst acc) s t = true -> dn <> [] /\
      forall x, trans (safetyEnv c) s x = true -> trans (fst (snd acc)) s x = true;
    p_sc2 : forall s t, dn <> [] -> covS dn s -> trans (fst acc) s t = true;
    p_str : forall s t, trans (snd (snd acc)) s t = true <-> open_of dn s t
  }.

  Lemma exPostOut_out F s t y : trans (bexists (varCubePostOutput c) F) s (mrg c t y) =
    trans (bexists (varCubePostOutput c) F) s t.
  Proof.
    apply eq_true_iff_eq. rewrite !exPostOut_trans by auto.
    split; intros (y' & H); exists y'; rewrite <- H; apply trans_eq; intros k; unfold mrg; now destruct (isOut c k).
  Qed.

  Lemma permissive_step i data : Forall (fun e => fst e = i -> any (snd e)) data -> forall dn acc, PInv dn acc ->
    PInv (dn ++ dataOf i data) (fold_left (permissiveStep c i) data acc).
  Proof.
    induction 1 as [|[j F] data HF H IH]; intros dn acc HI.
    - cbn. now rewrite app_nil_r.
    - cbn [fold_left]. unfold dataOf. cbn [fst snd filter]. destruct (Nat.eqb_spec j i) as [E|E].
      2:{ apply IH. destruct acc as [sc [sic str]]. unfold permissiveStep. cbn [fst].
          destruct (Nat.eqb_spec j i); [contradiction|exact HI]. }
      cbn [map snd]. fold (dataOf i data). cbn [fst snd] in HF. specialize (HF E).
      replace (dn ++ F :: dataOf i data) with ((dn ++ [F]) ++ dataOf i data) by now rewrite <- app_assoc.
      apply IH. destruct acc as [sc [sic str]]. destruct HI as [A1 A2 A3 A4 A5 A6 A7 A8]. cbn [fst snd] in *.
      unfold permissiveStep. cbn [fst snd]. destruct (Nat.eqb_spec j i) as [_|]; [|contradiction].
      set (nc := band (bexists (varCubePostOutput c) F) (bnot sc)). set (sic' := bor sic nc).
      set (sc' := bforall (varCubePostInput c) (bor (bnot (safetyEnv c)) sic')).
      assert (NC : forall s t, trans nc s t = true <-> (exists y, trans F s (mrg c t y) = true) /\ trans sc s t = false).
      { intros s t. unfold nc. rewrite trans_and, trans_not, andb_true_iff, negb_true_iff, exPostOut_trans by auto. tauto. }
      assert (Anc : any nc).
      { unfold nc. apply dep_and; [|apply dep_not; tauto]. apply (isPrePostIn_isAny c), dep_exPostOut; auto. }
      assert (Asic : any sic') by (apply dep_or; tauto).
      assert (Afa : any (bor (bnot (safetyEnv c)) sic')).
      { apply dep_or; auto. apply dep_not. now apply (isPrePostIn_isAny c). }
      assert (SIC : forall s t, trans sic' s t = true <-> trans sic s t = true \/ trans nc s t = true).
      { intros s t. unfold sic'. now rewrite trans_or, orb_true_iff. }
      assert (NC3 : forall s x t, trans nc s (mrg c x t) = trans nc s x).
      { intros s x t. unfold nc. rewrite !trans_and, !trans_not, exPostOut_out. now rewrite (A5 s (mrg c x t) x). }
      assert (S3 : forall s x t, trans sic' s (mrg c x t) = trans sic' s x).
      { intros s x t. unfold sic'. now rewrite !trans_or, A4, NC3. }
      assert (SC : forall s t, trans sc' s t = true <->
         forall x, trans (safetyEnv c) s x = true -> trans sic' s x = true).
      { intros s t. unfold sc'. rewrite faPostIn_trans by auto. split.
        - intros Hx x Hs. specialize (Hx x). rewrite trans_or, trans_not, S3, (safeE_mrg c Hwf), Hs in Hx. exact Hx.
        - intros Hx x. rewrite trans_or, trans_not, S3, (safeE_mrg c Hwf).
          destruct (trans (safetyEnv c) s x) eqn:Es; auto. now rewrite Hx. }
      constructor; cbn [fst snd].
      + split; [|split; auto].
        * eapply dep_forall; [exact Afa|]. auto.
        * apply dep_or; [tauto|]. apply dep_and; auto. apply dep_not. tauto.
      + intros s t Hs. apply SIC in Hs. destruct Hs as [Hs|Hs].
        * destruct (A2 s t Hs) as (F' & y & Hi & Hy). exists F', y. split; auto. apply in_or_app. auto.
        * apply NC in Hs. destruct Hs as ((y & Hy) & _). exists F, y. split; auto. apply in_or_app. right. now left.
      + intros s t F' y Hi Hy. rewrite SIC, SC. destruct (trans sc s t) eqn:Es.
        * right. intros x Hx. apply SIC. left. now apply (A6 s t Es).
        * left. apply in_app_iff in Hi. destruct Hi as [Hi|[<-|[]]].
          -- destruct (A3 s t F' y Hi Hy); [auto|congruence].
          -- right. apply NC. eauto.
      + exact S3.
      + intros s t t'. apply eq_true_iff_eq. now rewrite !SC.
      + intros s t Hs. split; [now destruct dn|]. now apply (SC s t).
      + intros s t _ HC. apply SC. intros x Hx. apply SIC.
        destruct (trans sc s x) eqn:Es; [left; now apply (A6 s x Es)|].
        destruct (HC x Hx) as (F' & y & Hi & Hy). apply in_app_iff in Hi. destruct Hi as [Hi|[<-|[]]].
        * destruct (A3 s x F' y Hi Hy); [auto|congruence].
        * right. apply NC. eauto.
      + assert (NSC : forall s t, trans sc s t = false <-> dn = [] \/ ~ covS dn s).
        { intros s t. split.
          - intros Es. destruct dn as [|F0 dn]; [now left|right]. intros HC. rewrite (A7 s t) in Es by (auto; discriminate).
            discriminate.
          - intros Hd. destruct (trans sc s t) eqn:Es; auto. destruct (A6 s t Es) as [Hn HC].
            destruct Hd as [Hd|Hd]; [contradiction|]. elim Hd. intros x Hx. apply A2. auto. }
        intros s t. rewrite trans_or, trans_and, trans_not, orb_true_iff, andb_true_iff, negb_true_iff, A8, NSC. split.
        * intros [(p & F' & q & -> & H1 & H2)|[Hd Ht]].
          -- exists p, F', (q ++ [F]). rewrite <- app_assoc. auto.
          -- exists dn, F, []. auto.
        * intros (p & F' & q & Eq & H1 & H2). destruct q as [|x q] using rev_ind.
          -- apply app_inj_tail in Eq. destruct Eq as [<- <-]. auto.
          -- left. rewrite app_comm_cons, app_assoc in Eq. apply app_inj_tail in Eq.
             destruct Eq as [-> _]. exists p, F', q. auto.
  Qed.

  Lemma permissive_inv i data : Forall (fun e => fst e = i -> any (snd e)) data ->
    PInv (dataOf i data) (fold_left (permissiveStep c i) data (bfalse, (bfalse, bfalse))).
  Proof.
    intros H. apply (permissive_step i data H []). constructor; cbn [fst snd]; intros; rewrite ?trans_false in *; auto; try discriminate; try contradiction.
    - repeat split; apply dep_false.
    - split; [discriminate|]. intros (p & F & q & E & _). destruct p; discriminate.
  Qed.

  Variable w : BF.
  Variable data : list (nat * BF).
  Variable L : nat -> list (BF * BF).
  Hypothesis Hw : pre w.
  Hypothesis HL : forall j, j < M -> dataOf j data = map fst (L j) /\
    goodEnt c w (nth j (livenessGuarantees c) btrue) (L j) w.

  Local Lemma data_j j : j < M -> Forall (fun e => fst e = j -> any (snd e)) data.
  Proof.
    intros Hj. eapply Forall_impl; [|apply (data_any c w data L HL)]. intros e He <-. auto.
  Qed.

  Lemma any_permissive j : j < M -> any (permissive c data j).
  Proof. intros Hj. apply (p_any _ _ (permissive_inv j data (data_j j Hj))). Qed.

  Lemma permissive_spec j s t : j < M ->
    trans (permissive c data j) s t = true <-> open_of (dataOf j data) s t.
  Proof. intros Hj. apply (p_str _ _ (permissive_inv j data (data_j j Hj))). Qed.

  Lemma permT j s t : j < M -> trans (stratT c false (permissive c data) j) s t = true <->
    open_of (dataOf j data) s t /\ trans (safetyEnv c) s t = true.
  Proof. intros Hj. unfold stratT. rewrite trans_and, andb_true_iff, permissive_spec by auto. tauto. Qed.

  Lemma permT_good j s t : j < M -> trans (stratT c false (permissive c data) j) s t = true ->
    trans (safetySys c) s t = true /\ pos w t = true.
  Proof.
    intros Hj H. apply permT in H; auto. destruct H as [(p & F & q & E & H & _) _].
    destruct (HL j Hj) as (E' & H1 & _). rewrite E' in E.
    assert (Hin : In F (map fst (L j))) by (rewrite E; apply in_or_app; right; now left).
    apply in_map_iff in Hin. destruct Hin as ([F' A] & <- & Hin).
    apply in_split in Hin. destruct Hin as (p' & q' & Hin). cbn [fst] in H.
    destruct (H1 p' F' A q' Hin s t H) as [S [[_ E1]|[[_ E1]|(_ & _ & E1)]]]; auto.
  Qed.

  Lemma split_fst (l : list (BF * BF)) : forall p F q, map fst l = p ++ F :: q ->
    exists p' A q', l = p' ++ (F, A) :: q' /\ map fst p' = p.
  Proof.
    induction l as [|[F0 A0] l IH]; intros p F q E; [destruct p; discriminate|].
    destruct p as [|f p]; cbn in E; injection E as E1 E2.
    - subst. exists [], A0, l. auto.
    - destruct (IH p F q E2) as (p' & A & q' & -> & <-). subst f. exists ((F0, A0) :: p'), A, q'. auto.
  Qed.

  Lemma permT_follow j s t : j < M -> trans (stratT c false (permissive c data) j) s t = true ->
    trans (safetyEnv c) s t = true -> follow g (lift (L j)) s t.
  Proof.
    intros Hj H HE. apply permT in H; auto. destruct H as [(p & F & q & E & H & HN) _].
    destruct (HL j Hj) as (E' & _). rewrite E' in E.
    destruct (split_fst _ _ _ _ E) as (p' & A & q' & EL & Ep).
    exists (lift p'), (trans F), (trans A), (lift q'). split; [|split; auto].
    - rewrite EL. unfold lift. now rewrite map_app.
    - intros C. rewrite map_fst_lift in C. destruct HN as [HN|HN].
      + destruct (C t) as (F' & y & Hin & _).
        * cbn. rewrite <- (mrg_merge c t t), (safeE_mrg c Hwf). exact HE.
        * rewrite HN in Ep. destruct p'; [destruct Hin|discriminate].
      + apply HN. intros x Hx. destruct (C x) as (F' & y & Hin & Hy).
        * cbn. rewrite <- (mrg_merge c x x), (safeE_mrg c Hwf). exact Hx.
        * apply in_map_iff in Hin. destruct Hin as (e & <- & Hin). exists (fst e), y. split; auto.
          rewrite <- Ep. now apply in_map.
  Qed.

  (** The transitions of the deterministic strategy are contained. *)
  Lemma permT_contains j s t : j < M -> trans (stratT c false (positional c data) j) s t = true ->
    trans (stratT c false (permissive c data) j) s t = true.
  Proof.
    intros Hj H. apply (stratT_first c Hwf) in H. destruct H as [(p & F & q & E & H & HN) HE].
    specialize (HE eq_refl). apply permT; auto. split; auto. exists p, F, q. split; auto. split; auto.
    destruct p as [|F0 p]; [now left|right]. intros HC. destruct (HC t HE) as (F' & y & Hi & Hy).
    rewrite HN in Hy by auto. discriminate.
  Qed.

  Lemma permT_covers j s t : j < M -> pos w s = true -> trans (safetyEnv c) s t = true ->
    exists y, trans (stratT c false (permissive c data) j) s (mrg c t y) = true.
  Proof.
    intros Hj Hs Ht. destruct (stratT_covers c Hwf false w data L HL j s t Hj Hs Ht) as (y & Hy).
    exists y. now apply permT_contains.
  Qed.

  Lemma extractPermissive_spec : exists keys out, extractPermissive c w data = Some out /\
    result c true false (permissive c data) w keys out.
  Proof.
    unfold extractPermissive.
    destruct (worklist_spec c Hwf true false (permissive c data)) with (f := w)
      as (wk & keys & out & -> & E & R); auto using any_permissive. eauto.
  Qed.
End PERM.

(** ** The printed text *)
Lemma permissive_text c out : Forall noNl (printedNames c) ->
  permLines (printedNames c) (map fst out) (file_lines (sconcat (map (permissiveNode (printedNames c)) out))).
Proof.
  intros HN. induction out as [|[v f] out IH]; [constructor|].
  cbn [map fst]. rewrite sconcat_cons.
  set (rest := sconcat (map (permissiveNode (printedNames c)) out)) in *.
  unfold permissiveNode. cbn [fst].
  set (vs := String.concat ", " (map (fun p => sconcat [fst p; ":"%string; bit (snd p)]) (combine (printedNames c) (n_vals v)))).
  set (l1 := ("State " ++ showNat (n_num v) ++ " with rank " ++ showNat (n_rank v))%string).
  assert (V : Forall noNl (map (fun p => sconcat [fst p; ":"%string; bit (snd p)]) (combine (printedNames c) (n_vals v)))).
  { apply Forall_forall. intros x Hx. apply in_map_iff in Hx. destruct Hx as ([n b] & <- & Hx).
    apply in_combine_l in Hx. rewrite Forall_forall in HN. cbn [fst snd].
    rewrite !sconcat_cons. repeat apply noNl_app; auto.
    - now apply noNl_lit.
    - destruct b; now apply noNl_lit.
    - intros a []. }
  match goal with |- permLines _ _ (file_lines ?t) =>
    replace t with (l1 ++ nl ++ (vs ++ nl ++ (sconcat (map (fun n => sconcat [showNat n; nl]) (n_succ v)) ++ nl ++ rest)))%string end.
  2:{ unfold l1. rewrite !sconcat_cons, ?sconcat_nil, !sapp_assoc, ?sapp_nil. reflexivity. }
  rewrite (file_lines_line l1), (file_lines_line vs).
  - assert (E : forall l, file_lines (sconcat (map (fun n => sconcat [showNat n; nl]) l) ++ nl ++ rest)%string =
      map showNat l ++ ""%string :: file_lines rest).
    { induction l as [|n l IHl]; cbn [map].
      - rewrite sconcat_nil. apply (file_lines_line ""). intros a [].
      - rewrite !sconcat_cons, sconcat_nil, sapp_nil, !sapp_assoc, file_lines_line by apply noNl_show.
        cbn [app]. now rewrite IHl. }
    rewrite E. constructor; auto.
    + exists (showNat (n_num v)), (showNat (n_rank v)). repeat split; apply showNat_number.
    + unfold permVals.
      replace (map (fun p : string * bool => (fst p ++ ":" ++ (if snd p then "1" else "0"))%string) (combine (printedNames c) (n_vals v)))
        with (map (fun p => sconcat [fst p; ":"%string; bit (snd p)]) (combine (printedNames c) (n_vals v))).
      * apply separated_concat.
      * apply map_ext. intros [n b]. cbn [fst snd]. rewrite !sconcat_cons, sconcat_nil, sapp_nil. unfold bit. now destruct b.
    + clear. induction (n_succ v); constructor; auto. apply showNat_number.
  - unfold vs. now apply noNl_concat.
  - unfold l1. change (noNl ("State " ++ showNat (n_num v) ++ " with rank " ++ showNat (n_rank v))).
    repeat apply noNl_app; auto using noNl_show; now apply noNl_lit.
Qed.
