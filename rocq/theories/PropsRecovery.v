(** * C37: optimistic recovery *)

From Coq Require Import String Arith List Bool Lia.
From Verif Require Import BDD Loop Spec VarTypes Synth Sem FixBase GameSound SynthProofs Verdict Parser FileSpec FileProofs
  CoopProofs Recovery RecoverySpec PropsSynth PropsParser.
Import ListNotations.
Local Open Scope list_scope.

Section RECOVERY.
  Variable c : ctx.
  Hypothesis Hwf : wf c.
  Let Hk := wf_kinds c Hwf.
  Notation g := (game_of c).
  Notation pre := (dep (isPreV c)).
  Notation any := (dep (isAnyV c)).

  Definition addT (mu : BF) : BF := band (swapPrePost c mu) (safetySys c).
  Lemma any_addT mu : pre mu -> any (addT mu).
  Proof. intros D. apply dep_and; [|apply (wf_safetySys c Hwf)]. apply dep_swapPrePost; auto. now apply isPre_isAny. Qed.
  Lemma addT_spec mu s t : pre mu -> trans (addT mu) s t = true <-> g_safeS g s t = true /\ pos mu t = true.
  Proof.
    intros D. unfold addT. rewrite trans_and, (trans_swap_pos c Hk) by auto. rewrite andb_true_iff. cbn [g_safeS game_of]. tauto.
  Qed.
  Definition addS (mu : BF) : BF := bexists (varCubePost c) (addT mu).
  Lemma pre_addS mu : pre mu -> pre (addS mu).
  Proof. intros D. apply (pre_exPost c Hwf). now apply any_addT. Qed.
  Lemma addS_spec mu s : pre mu -> pos (addS mu) s = true <-> exists t, g_safeS g s t = true /\ pos mu t = true.
  Proof.
    intros D. unfold addS. rewrite (exPost_pos c Hwf) by now apply any_addT.
    split; intros (t & Ht); exists t; now apply addT_spec.
  Qed.
  Lemma addS_mono mu mu' : pre mu -> pre mu' -> sub mu mu' -> sub (addS mu) (addS mu').
  Proof. intros D D' S s H. apply addS_spec in H; auto. destruct H as (t & H1 & H2). apply addS_spec; auto. exists t. auto. Qed.

  (** The sets added for the goals. *)
  Definition extraFor (T : BF) : list (nat * BF) := map (fun j => (j, T)) (seq 0 (length (livenessGuarantees c))).
  Definition goodExtra (extra : list (nat * BF)) : Prop :=
    forall j T, In (j, T) extra -> j < length (g_liveG g) /\
      forall s t, trans T s t = true -> g_safeS g s t = true /\ can_return g t.
  Definition covers (mu : BF) : Prop := pre mu /\ forall s, pos mu s = true -> can_return g s.
  Lemma covers_addS mu : covers mu -> covers (addS mu).
  Proof.
    intros [D H]. split; [now apply pre_addS|]. intros s Hs. apply addS_spec in Hs; auto. destruct Hs as (t & H1 & H2).
    apply cr_step with t; auto.
  Qed.
  Lemma goodExtra_add extra mu : covers mu -> goodExtra extra -> goodExtra (extra ++ extraFor (addT mu)).
  Proof.
    intros [D H] G j T Hj. apply in_app_or in Hj. destruct Hj as [Hj|Hj]; [now apply G|].
    unfold extraFor in Hj. apply in_map_iff in Hj. destruct Hj as (j' & E & Hj). injection E as <- <-. apply in_seq in Hj.
    split; [cbn; rewrite map_length; lia|]. intros s t Ht. apply addT_spec in Ht; auto. destruct Ht. auto.
  Qed.

  Lemma body_cases mu d : recoveryBody c (mu, d) =
    if bf_eqb mu (addS mu) then Done (mu, d ++ extraFor (addT mu)) else Cont (addS mu, d ++ extraFor (addT mu)).
  Proof. reflexivity. Qed.

  Lemma recovers_sound w data : recovers c w data -> exists d extra, computeWinningPositions c = Some (w, d) /\ data = d ++ extra /\ goodExtra extra.
  Proof.
    intros (d & mu & E & R). destruct (compute_spec c Hwf) as (w' & d' & E' & HS). rewrite E' in E. injection E as -> ->.
    pose proof (solved_exact c w d Hwf HS) as HX.
    destruct (Runs_last (recoveryBody c) (fun st => covers (fst st) /\ exists extra, snd st = d ++ extra /\ goodExtra extra) _ _ R)
      as ([mu' data'] & (HC & extra & E & G) & Ed).
    - split; [|exists []; split; [now rewrite app_nil_r|intros j T []]]. split; [apply (solved_pre c Hwf w d HS)|].
      intros s Hs. apply cr_here. now apply (exact_winning c w HX).
    - intros [mu1 d1] st' (HC & extra & E & G) Hb. cbn [fst snd] in *. rewrite body_cases in Hb.
      destruct (bf_eqb _ _); [discriminate|]. injection Hb as <-. cbn [fst snd]. split; [now apply covers_addS|].
      exists (extra ++ extraFor (addT mu1)). split; [subst; now rewrite app_assoc|now apply goodExtra_add].
    - cbn [fst snd] in *. rewrite body_cases in Ed. destruct (bf_eqb _ _); [|discriminate]. injection Ed as _ <-.
      exists d, (extra ++ extraFor (addT mu')). split; auto. split; [subst; now rewrite app_assoc|now apply goodExtra_add].
  Qed.

  (** In winning positions, every permitted input has a reply. *)
  Lemma winning_step w d s t : solved c w d -> pos w s = true -> g_safeE g s t = true ->
    exists u, g_safeS g s u = true /\ pos w u = true.
  Proof.
    intros HS Hw HE. pose proof (solved_exact c w d Hwf HS) as HX. apply (exact_winning c w HX) in Hw. destruct Hw as (f & Hf).
    set (x := fun _ : nat => t). exists (play_from g f s x 1).
    assert (HE1 : g_safeE g s (play_from g f s x 1) = true).
    { rewrite <- HE. cbn [game_of g_safeE]. unfold play_from. cbn [history_from hd]. unfold x.
      rewrite <- (trans_eq (safetyEnv c) s (mrg c t t) t) by (intros k; unfold mrg; now destruct (isOut c k)).
      apply (safeE_in c). apply (wf_safetyEnv c Hwf). }
    split.
    - destruct (Hf x) as [H _]. apply (H 0). intros m Hm. replace m with 0 by lia. exact HE1.
    - apply (exact_winning c w HX).
      set (f' := fun (h : list state) (z : state) => f (h ++ [s]) z).
      set (t1 := play_from g f s x 1). exists f'. intros x'.
      set (x1 := fun n => match n with 0 => t | 1 => t | S (S n) => x' (S n) end).
      assert (EH : forall n, history_from g f s x1 (S n) = history_from g f' t1 x' n ++ [s]).
      { induction n as [|n IH].
        - reflexivity.
        - change (history_from g f s x1 (S (S n))) with
            (merge g (x1 (S (S n))) (f (history_from g f s x1 (S n)) (x1 (S (S n)))) :: history_from g f s x1 (S n)).
          rewrite IH. reflexivity. }
      assert (EP : forall n, play_from g f' t1 x' n = play_from g f s x1 (S n)).
      { intros n. unfold play_from. rewrite EH. destruct n; reflexivity. }
      assert (E1 : play_from g f s x1 1 = t1) by reflexivity.
      destruct (Hf x1) as [H1 H2]. split.
      + intros n Hn. rewrite !EP. apply H1. intros [|m] Hm; [rewrite E1; exact HE1|]. rewrite <- !EP. apply Hn. lia.
      + intros HE' HA p Hp n. destruct (H2) with (p := p) (n := S n) as (m & Hm & Hpm); auto.
        * intros [|m]; [rewrite E1; exact HE1|]. rewrite <- !EP. apply HE'.
        * intros q Hq k. destruct (HA q Hq k) as (m & Hm & Hqm). exists (S m). split; [lia|]. now rewrite <- !EP.
        * destruct m as [|m]; [lia|]. exists m. split; [lia|]. now rewrite !EP.
  Qed.

  Lemma recovers_total : (forall s, winning g s -> exists t, g_safeE g s t = true) ->
    exists w d extra, recovers c w (d ++ extra) /\ computeWinningPositions c = Some (w, d) /\
      forall j s t, j < length (g_liveG g) -> g_safeS g s t = true -> can_return g t -> exists T, In (j, T) extra /\ trans T s t = true.
  Proof.
    intros HN. destruct (compute_spec c Hwf) as (w & d & E & HS). pose proof (solved_exact c w d Hwf HS) as HX.
    assert (D : pre w) by apply (solved_pre c Hwf w d HS).
    destruct (fp_inc c Hk (recoveryBody c) (fun v _ => addS v) (fun v d => d ++ extraFor (addT v))
       (fun v d' => pre v /\ sub w v /\ sub v (addS v) /\ exists extra, d' = d ++ extra) w d) as (mu & d' & I & Ef & _ & R).
    - split; auto. split; [apply sub_refl|]. split; [|exists []; now rewrite app_nil_r].
      intros s Hs. apply addS_spec; auto. destruct (HN s) as (t & Ht); [now apply (exact_winning c w HX)|].
      destruct (winning_step w d s t HS Hs Ht) as (u & H1 & H2). now exists u.
    - intros v d' (Dv & H1 & H2 & extra & ->). split; [reflexivity|]. split; auto. split; [now apply pre_addS|]. split; auto.
      intros _. split; [now apply pre_addS|]. split; [eapply sub_trans; eauto|]. split; [apply addS_mono; auto; now apply pre_addS|].
      exists (extra ++ extraFor (addT v)). now rewrite app_assoc.
    - destruct I as (Dv & H1 & H2 & extra & ->). exists w, d, (extra ++ extraFor (addT mu)). split.
      + exists d, mu. split; auto. now rewrite app_assoc.
      + split; auto. intros j s t Hj HSt HR. exists (addT mu). split.
        * apply in_or_app. right. unfold extraFor. apply in_map_iff. exists j. split; auto. apply in_seq. cbn in Hj. rewrite map_length in Hj. lia.
        * apply addT_spec; auto. split; auto. clear HSt. induction HR as [s1 Hw|s1 t1 Hst _ IH].
          -- apply H1. now apply (exact_winning c w HX).
          -- rewrite <- Ef. apply addS_spec; eauto.
  Qed.
End RECOVERY.

(** The winning positions are the ones of the basic algorithm.  The recorded transitions
    are those of the basic algorithm and others, which satisfy the safety guarantees and
    from which there is a way back to a winning position. *)
Theorem C37_sound : forall c w data, wf c -> recovers c w data ->
  exists d extra, computeWinningPositions c = Some (w, d) /\ data = d ++ extra /\
    forall j T, In (j, T) extra -> j < List.length (g_liveG (game_of c)) /\
      forall s t, trans T s t = true -> g_safeS (game_of c) s t = true /\ can_return (game_of c) t.
Proof. intros c w data W R. exact (recovers_sound c W w data R). Qed.
Print Assumptions C37_sound.

(** If the environment has a permitted input in each winning position, then the
    computation terminates, and it finds all such transitions, for each goal. *)
Theorem C37_terminates_partial : forall c, wf c ->
  (forall s, winning (game_of c) s -> exists t, g_safeE (game_of c) s t = true) ->
  exists w d extra, recovers c w (d ++ extra) /\ computeWinningPositions c = Some (w, d) /\
    forall j s t, j < List.length (g_liveG (game_of c)) -> g_safeS (game_of c) s t = true -> can_return (game_of c) t ->
      exists T, In (j, T) extra /\ trans T s t = true.
Proof. intros c W H. exact (recovers_total c W H). Qed.
Print Assumptions C37_terminates_partial.

(** Otherwise it need not terminate. *)
Definition swingFile : string :=
  ("[INPUT]" ++ nl ++ "a" ++ nl ++ "[OUTPUT]" ++ nl ++ "b" ++ nl ++ "[ENV_TRANS]" ++ nl ++ "b" ++ nl ++
   "[SYS_TRANS]" ++ nl ++ "^ b b'" ++ nl ++ "| ! b a'" ++ nl)%string.
Theorem C37_refuted : exists ord content c, initContext ord content = POk c /\ ~ exists w data, recovers c w data.
Proof.
  exists exOrd, swingFile. destruct (initContext exOrd swingFile) as [c|e| |] eqn:E; try (vm_compute in E; discriminate).
  exists c. split; auto. intros (w & data & d & mu & EW & R).
  assert (match initContext exOrd swingFile with
          | POk c => match computeWinningPositions c with
                     | Some (w, _) => bf_eqb (bexists (varCubePost c) (band (swapPrePost c w) (safetySys c))) (bnot w) = true /\
                                      bf_eqb (bexists (varCubePost c) (band (swapPrePost c (bnot w)) (safetySys c))) w = true /\ bf_eqb w (bnot w) = false
                     | None => False
                     end
          | _ => True end) as X by (vm_compute; repeat split).
  rewrite E, EW in X. destruct X as (X1 & X2 & X3). apply bf_eqb_eq in X1, X2. apply bf_eqb_neq in X3.
  destruct (Runs_last (recoveryBody c) (fun st => fst st = w \/ fst st = bnot w) _ _ R) as ([v d'] & I & Ed); [now left| |].
  - intros [v d'] st' I Hb. cbn [fst] in I. rewrite body_cases in Hb. unfold addS, addT in Hb.
    destruct (bf_eqb _ _); [discriminate|]. injection Hb as <-. cbn [fst]. destruct I as [-> | ->]; rewrite ?X1, ?X2; auto.
  - cbn [fst] in I. rewrite body_cases in Ed. unfold addS, addT in Ed. destruct I as [-> | ->].
    + rewrite X1 in Ed. destruct (bf_eqb_spec w (bnot w)); [congruence|discriminate].
    + rewrite X2 in Ed. destruct (bf_eqb_spec (bnot w) w); [congruence|discriminate].
Qed.
Print Assumptions C37_refuted.

(** Example: only from some positions there is a way back. *)
Definition backFile : string :=
  ("[INPUT]" ++ nl ++ "a" ++ nl ++ "[OUTPUT]" ++ nl ++ "b" ++ nl ++ "c" ++ nl ++
   "[SYS_TRANS]" ++ nl ++ "| ! b & a' ! b'" ++ nl ++ "| ! c 0" ++ nl)%string.
Definition backRun (fuel : nat) : option (list nat) :=
  match initContext exOrd backFile with
  | POk c => match computeWinningPositions c with
             | Some (w, d) => option_map (fun r => [card c w; card c (fst r); List.length d; List.length (snd r)])
                                         (run (recoveryBody c) fuel (w, d))
             | None => None
             end
  | _ => None
  end.
Example C37_example : backRun 3 = Some [2; 4; 2; 4].
Proof. vm_compute. reflexivity. Qed.
