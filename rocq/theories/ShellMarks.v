(** * The interactive shell: partial valuations and marked values *)

From Coq Require Import String Ascii NArith ZArith Arith List Bool Lia.
From Verif Require Import BDD Loop Spec VarTypes Synth Sem FixBase Verdict Solvers SolversProofs
  AutSpec Explicit DetProofs ExplicitProofs Counter SynthProofs CounterData CounterDual Parser ShellSpec Shell ShellText ShellProofs ShellSafe.
Import ListNotations.
Local Open Scope list_scope.

(** ** Levels of functions *)
Definition forcesB (f : BF) (v : nat) (b : bool) : Prop := forall e, eval f e = true -> e v = b.
Fixpoint markB (ls : list (ascii * ascii * BF)) (v : nat) (b : bool) (m : ascii) : Prop :=
  match ls with
  | [] => m = if b then "1"%char else "0"%char
  | (lower, upper, f) :: ls =>
      (forcesB f v b /\ m = if b then upper else lower) \/
      (~ (exists b', forcesB f v b') /\ markB ls v b m)
  end.
(** The letter, or '.'. *)
Fixpoint letter (ls : list (ascii * ascii * BF)) (v : nat) : ascii :=
  match ls with
  | [] => "."%char
  | (lower, upper, f) :: ls =>
      if isFalse (band f (bvar v)) then lower
      else if isFalse (band f (bnot (bvar v))) then upper
      else letter ls v
  end.

Lemma forcesB_false f v : isFalse (band f (bvar v)) = true <-> forcesB f v false.
Proof.
  rewrite isFalse_spec. unfold forcesB. split; intros H e.
  - intros E. specialize (H e). rewrite eval_and, eval_var, E in H. exact H.
  - rewrite eval_and, eval_var. destruct (eval f e) eqn:E; auto. now rewrite (H e E).
Qed.
Lemma forcesB_true f v : isFalse (band f (bnot (bvar v))) = true <-> forcesB f v true.
Proof.
  rewrite isFalse_spec. unfold forcesB. split; intros H e.
  - intros E. specialize (H e). rewrite eval_and, eval_not, eval_var, E in H. cbn in H. now apply negb_false_iff in H.
  - rewrite eval_and, eval_not, eval_var. destruct (eval f e) eqn:E; auto. now rewrite (H e E).
Qed.
Lemma forcesB_excl f v e : eval f e = true -> forcesB f v false -> forcesB f v true -> False.
Proof. intros E H1 H2. specialize (H1 e E). specialize (H2 e E). congruence. Qed.

Definition proper (ls : list (ascii * ascii * BF)) : Prop :=
  Forall (fun l => fst (fst l) <> "."%char /\ snd (fst l) <> "."%char) ls.

Lemma char_eqb a b : (a =? b)%char = true <-> a = b.
Proof. apply Ascii.eqb_eq. Qed.

Lemma letter_app ls lo up f v : proper ls ->
  letter (ls ++ [(lo, up, f)]) v =
  if (letter ls v =? ".")%char then
    if isFalse (band f (bvar v)) then lo else if isFalse (band f (bnot (bvar v))) then up else "."%char
  else letter ls v.
Proof.
  induction ls as [|[[lo' up'] f'] ls IH]; intros HP; [reflexivity|].
  inversion HP as [|x y H1 H2]; subst. cbn [fst snd] in H1. cbn [letter app].
  destruct (isFalse (band f' (bvar v))).
  { destruct (lo' =? ".")%char eqn:E; auto. apply char_eqb in E. now elim (proj1 H1). }
  destruct (isFalse (band f' (bnot (bvar v)))); auto.
  destruct (up' =? ".")%char eqn:E; auto. apply char_eqb in E. now elim (proj2 H1).
Qed.

Lemma combine_map_r {A B} (g : A -> B) l : combine l (map g l) = map (fun a => (a, g a)) l.
Proof. induction l; cbn; f_equal; auto. Qed.

Lemma mark_letter ls lo up f vars : proper ls ->
  mark f lo up vars (map (letter ls) vars) = map (letter (ls ++ [(lo, up, f)])) vars.
Proof.
  intros HP. unfold mark. rewrite combine_map_r, map_map. apply map_ext. intros v. cbn [fst snd].
  now rewrite letter_app.
Qed.

Lemma markR_letter ls lo up f vars : proper ls -> isFalse f = false ->
  markR f lo up vars (map (letter ls) vars) = map (letter (ls ++ [(lo, up, f)])) vars.
Proof.
  intros HP HF. unfold markR. rewrite combine_map_r, map_map. apply map_ext. intros v. cbn [fst snd].
  rewrite letter_app by auto. destruct (_ =? _)%char; auto. apply isFalse_false in HF. destruct HF as (e & He).
  destruct (isFalse (band f (bnot (bvar v)))) eqn:E1, (isFalse (band f (bvar v))) eqn:E2; auto.
  apply forcesB_true in E1. apply forcesB_false in E2. now elim (forcesB_excl f v e He).
Qed.

Lemma letter_markB ls v e : proper ls -> Forall (fun l => eval (snd l) e = true) ls ->
  markB ls v (e v) (if (letter ls v =? ".")%char then if e v then "1"%char else "0"%char else letter ls v).
Proof.
  induction ls as [|[[lo up] f] ls IH]; intros HP HE; [reflexivity|].
  inversion HP as [|x y H1 H2]; subst. inversion HE as [|x y H3 H4]; subst. cbn [fst snd] in *. cbn [letter markB].
  destruct (isFalse (band f (bvar v))) eqn:E1.
  { apply forcesB_false in E1. left. rewrite (E1 e H3). split; auto.
    destruct (lo =? ".")%char eqn:E; auto. apply char_eqb in E. now elim (proj1 H1). }
  destruct (isFalse (band f (bnot (bvar v)))) eqn:E2.
  { apply forcesB_true in E2. left. rewrite (E2 e H3). split; auto.
    destruct (up =? ".")%char eqn:E; auto. apply char_eqb in E. now elim (proj2 H1). }
  right. split; [|now apply IH]. intros ([|] & H).
  - apply forcesB_true in H. congruence.
  - apply forcesB_false in H. congruence.
Qed.

(** ** Choosing values *)
Lemma fill_spec vars : forall marks f, isFalse f = false -> length marks = length vars ->
  exists out f' e, fill f vars marks = Next (out, f') /\ eval f' e = true /\
    (forall e', eval f' e' = true <-> eval f e' = true /\
       forall v, In (v, "."%char) (combine vars marks) -> e' v = e v) /\
    out = map (fun p => if (snd p =? ".")%char then if e (fst p) then "1"%char else "0"%char else snd p) (combine vars marks).
Proof.
  induction vars as [|v vars IH]; intros [|m marks] f HF HL; try discriminate.
  - apply isFalse_false in HF. destruct HF as (e & He). exists [], f, e. split; [reflexivity|]. split; auto.
    split; [|reflexivity]. intros e'. cbn. tauto.
  - injection HL as HL. cbn [fill combine map fst snd]. destruct (m =? ".")%char eqn:Em.
    2:{ destruct (IH marks f HF HL) as (out & f' & e & E & H1 & H2 & H3). exists (m :: out), f', e.
        rewrite E. cbn [obind fst snd]. rewrite H3. split; [reflexivity|]. split; auto. split; [|reflexivity].
        intros e'. rewrite H2. split; intros [H4 H5]; split; auto; intros v' Hv; [|apply H5; now right].
        destruct Hv as [Hv|Hv]; auto. injection Hv as _ Hv. apply char_eqb in Hv. congruence. }
    apply char_eqb in Em. subst m.
    assert (X : forall (b : bool) g, (forall e', eval g e' = eval f e' && eqb (e' v) b) -> isFalse g = false ->
      exists out f' e, obind (fill g vars marks) (fun r => Next ((if b then "1"%char else "0"%char) :: fst r, snd r)) = Next (out, f') /\
        eval f' e = true /\ (forall e', eval f' e' = true <-> eval f e' = true /\
          forall v', In (v', "."%char) ((v, "."%char) :: combine vars marks) -> e' v' = e v') /\
        out = (if e v then "1"%char else "0"%char) ::
          map (fun p => if (snd p =? ".")%char then if e (fst p) then "1"%char else "0"%char else snd p) (combine vars marks)).
    { intros b g Hg HF'. destruct (IH marks g HF' HL) as (out & f' & e & E & H1 & H2 & H3).
      assert (Eb : e v = b).
      { apply H2 in H1. destruct H1 as [H1 _]. rewrite Hg in H1. apply andb_true_iff in H1. now apply eqb_prop. }
      exists ((if b then "1"%char else "0"%char) :: out), f', e. rewrite E. cbn [obind fst snd]. split; [reflexivity|]. split; auto.
      split; [|now rewrite H3, Eb]. intros e'. rewrite H2, Hg, andb_true_iff. rewrite <- Eb. split.
      - intros [[H4 H5] H6]. split; auto. intros v' [Hv|Hv]; [injection Hv as <-; now apply eqb_prop|auto].
      - intros [H4 H5]. split; [split; auto|].
        + rewrite (H5 v) by now left. apply eqb_reflx.
        + intros v' Hv. apply H5. now right. }
    destruct (isFalse (band f (bnot (bvar v)))) eqn:E1; cbn [negb].
    + destruct (isFalse (band f (bvar v))) eqn:E2; cbn [negb].
      * apply forcesB_true in E1. apply forcesB_false in E2. apply isFalse_false in HF. destruct HF as (e & He).
        now elim (forcesB_excl f v e He).
      * apply (X true); auto. intros e'. rewrite eval_and, eval_var. now destruct (eval f e'), (e' v).
    + apply (X false); auto. intros e'. rewrite eval_and, eval_not, eval_var. now destruct (eval f e'), (e' v).
Qed.

(** A chain of levels, the last of which contains [f]. *)
Lemma fill_marks ls f vars : proper ls -> isFalse f = false ->
  (forall e, eval f e = true -> Forall (fun l => eval (snd l) e = true) ls) ->
  exists out f' e, fill f vars (map (letter ls) vars) = Next (out, f') /\ eval f e = true /\
    (forall e', eval f' e' = true <-> eval f e' = true /\ forall v, In v vars -> e' v = e v) /\
    Forall2 (fun v m => markB ls v (e v) m) vars out.
Proof.
  intros HP HF HE. destruct (fill_spec vars (map (letter ls) vars) f HF (map_length _ _)) as (out & f' & e & E & H1 & H2 & H3).
  exists out, f', e. split; auto. pose proof H1 as H0. apply H2 in H0. destruct H0 as [H0 _]. split; auto.
  rewrite combine_map_r in *. split.
  - intros e'. rewrite H2. split; intros [H4 H5]; split; auto; intros v Hv.
    + destruct (letter ls v =? ".")%char eqn:El.
      * apply H5. apply in_map_iff. exists v. split; auto. apply char_eqb in El. now rewrite El.
      * clear - El HP HE H0 H4. pose proof (HE e H0) as F1. pose proof (HE e' H4) as F2. clear HE H0 H4.
        induction ls as [|[[lo up] g] ls IH]; [discriminate|].
        inversion HP; subst. inversion F1; subst. inversion F2; subst. cbn [letter snd] in *.
        destruct (isFalse (band g (bvar v))) eqn:E1.
        { apply forcesB_false in E1. now rewrite (E1 e), (E1 e'). }
        destruct (isFalse (band g (bnot (bvar v)))) eqn:E2.
        { apply forcesB_true in E2. now rewrite (E2 e), (E2 e'). }
        auto.
    + apply in_map_iff in Hv. destruct Hv as (u & Hu & Hin). injection Hu as <- _. auto.
  - subst out. rewrite map_map. cbn [fst snd]. pose proof (HE e H0) as F. clear - HP F.
    induction vars as [|v vars IH]; cbn [map]; constructor; auto. now apply letter_markB.
Qed.

Lemma noMarks_letter vars : noMarks vars = map (letter []) vars.
Proof. reflexivity. Qed.

(** ** Reading characters *)
Definition given (f : BF) (v : nat) (a : ascii) : BF :=
  if (a =? "0")%char then band f (literal v false) else if (a =? "1")%char then band f (literal v true) else f.
Fixpoint givens (vars : list nat) (p : list ascii) (f : BF) : BF :=
  match vars, p with v :: vars, a :: p => givens vars p (given f v a) | _, _ => f end.

Lemma readBits_chars vars : forall p f rest, length p = length vars -> Forall (fun a => isspace a = false) p ->
  readBits vars f (mkStream (charsText p ++ rest)%string false false) = Next (givens vars p f, mkStream rest false false).
Proof.
  induction vars as [|v vars IH]; intros [|a p] f rest HL HP; try discriminate; [reflexivity|].
  injection HL as HL. inversion HP as [|x y H1 H2]; subst. cbn [readBits charsText append givens].
  replace (readChar _) with (Some a, mkStream (charsText p ++ rest)%string false false).
  2:{ unfold readChar. cbn [good failed ended negb andb chars skipWs]. now rewrite H1. }
  rewrite IH by auto. reflexivity.
Qed.

Lemma eval_literal v b e : eval (literal v b) e = true <-> e v = b.
Proof. unfold literal. destruct b; rewrite ?eval_not, eval_var; destruct (e v); cbn; split; auto. Qed.

Lemma givens_spec vars : forall p f e, length p = length vars ->
  eval (givens vars p f) e = true <-> eval f e = true /\
    Forall2 (fun v a => (a = "0"%char -> e v = false) /\ (a = "1"%char -> e v = true)) vars p.
Proof.
  induction vars as [|v vars IH]; intros [|a p] f e HL; try discriminate.
  - cbn. split; [intros H; split; auto; constructor|tauto].
  - injection HL as HL. cbn [givens]. rewrite IH by auto. unfold given.
    assert (X : eval (if (a =? "0")%char then band f (literal v false) else if (a =? "1")%char then band f (literal v true) else f) e = true
      <-> eval f e = true /\ (a = "0"%char -> e v = false) /\ (a = "1"%char -> e v = true)).
    { destruct (a =? "0")%char eqn:E0.
      - apply char_eqb in E0. subst a. rewrite eval_and, andb_true_iff, eval_literal. split; [|tauto].
        intros [H1 H2]. split; auto. split; auto. discriminate.
      - destruct (a =? "1")%char eqn:E1.
        + apply char_eqb in E1. subst a. rewrite eval_and, andb_true_iff, eval_literal. split; [|tauto].
          intros [H1 H2]. split; auto. split; auto. discriminate.
        + split; [|tauto]. intros H. split; auto. split; intros ->; rewrite Ascii.eqb_refl in *; discriminate. }
    rewrite X. split.
    + intros [[H1 H2] H3]. split; auto.
    + intros [H1 H2]. inversion H2; subst. tauto.
Qed.

(** ** Positions *)
Section POS.
  Variable c : ctx.
  Hypothesis Hk : exists kinds, varTypes c = typesOf kinds /\ forallb isPreKind kinds = true.
  Local Notation N := (nvars c).

  Lemma eval_pre f e : dep (isPreV c) f -> eval f e = pos f (fun k => e (2 * k)).
  Proof.
    intros D. unfold pos. apply D. intros v [_ Hv]. unfold tv. rewrite Hv. f_equal.
    apply Nat.even_spec in Hv. destruct Hv as (k & ->). now rewrite Nat.div2_double.
  Qed.

  Lemma isFalse_pos f : dep (isPreV c) f -> isFalse f = false <-> exists s, pos f s = true.
  Proof.
    intros D. rewrite isFalse_false. split.
    - intros (e & He). rewrite eval_pre in He by auto. eauto.
    - intros (s & Hs). eauto.
  Qed.
  Lemma isFalse_pos' f : dep (isPreV c) f -> isFalse f = true <-> ~ exists s, pos f s = true.
  Proof. intros D. rewrite <- isFalse_pos by auto. now destruct (isFalse f). Qed.

  Lemma forces_pos f k b (P : state -> Prop) : dep (isPreV c) f -> (forall s, P s <-> pos f s = true) ->
    forcesB f (2 * k) b <-> forces P k b.
  Proof.
    intros D HP. unfold forcesB, forces. split.
    - intros H s Hs. apply HP in Hs. specialize (H _ Hs). now rewrite tv_even in H.
    - intros H e He. rewrite eval_pre in He by auto. apply HP in He. exact (H _ He).
  Qed.

  Lemma markB_pos ls Ls k b m : Forall2 (fun l L => fst l = fst L /\ dep (isPreV c) (snd l) /\ forall s, snd L s <-> pos (snd l) s = true) ls Ls ->
    markB ls (2 * k) b m -> markOf Ls k b m.
  Proof.
    intros H. revert m. induction H as [|[[lo up] f] [[lo' up'] P] ls Ls (H1 & H2 & H3) _ IH]; intros m; [auto|].
    cbn [fst snd] in *. injection H1 as <- <-. cbn [markB markOf]. intros [[H4 H5]|[H4 H5]].
    - left. split; auto. now apply (forces_pos f k b P H2 H3).
    - right. split; auto. intros (b' & H6). apply H4. exists b'. now apply (forces_pos f k b' P H2 H3).
  Qed.

  Lemma marked_pos ls Ls e out : Forall2 (fun l L => fst l = fst L /\ dep (isPreV c) (snd l) /\ forall s, snd L s <-> pos (snd l) s = true) ls Ls ->
    Forall2 (fun v m => markB ls v (e v) m) (map (fun k => 2 * k) (shellVars c)) out ->
    marked (shellVars c) Ls (fun k => e (2 * k)) out.
  Proof.
    intros H. unfold marked. revert out. generalize (shellVars c) as l. induction l as [|k l IH]; intros out H'.
    - inversion H'; subst; constructor.
    - inversion H'; subst. constructor; auto. now apply (markB_pos ls).
  Qed.

  Lemma preShell : varsT c PreInput ++ varsT c PreOutput = map (fun k => 2 * k) (shellVars c).
  Proof. unfold shellVars. now rewrite varsT_PreInput, varsT_PreOutput, map_app. Qed.
  Lemma postShell : varsT c PostInput ++ varsT c PostOutput = map (fun k => 2 * k + 1) (shellVars c).
  Proof. unfold shellVars. now rewrite varsT_PostInput, varsT_PostOutput, map_app. Qed.

  Lemma givens_pos p s : length p = length (shellVars c) ->
    pos (givens (map (fun k => 2 * k) (shellVars c)) p btrue) s = true <-> fits (shellVars c) p s.
  Proof.
    intros HL. unfold pos. rewrite givens_spec by now rewrite map_length. rewrite eval_true. unfold fits.
    assert (X : forall l p, Forall2 (fun v a => (a = "0"%char -> tv s s v = false) /\ (a = "1"%char -> tv s s v = true)) (map (fun k => 2 * k) l) p
      <-> Forall2 (fun k a => (a = "0"%char -> s k = false) /\ (a = "1"%char -> s k = true)) l p).
    { clear. induction l as [|k l IH]; intros p; split; intros H; inversion H; subst; constructor; try (now apply IH).
      - rewrite <- (tv_even s s k). exact H2.
      - now rewrite tv_even. }
    rewrite X. tauto.
  Qed.

  Lemma dep_givens (P : nat -> Prop) vars : forall p f, dep P f -> (forall v, In v vars -> P v) -> dep P (givens vars p f).
  Proof.
    induction vars as [|v vars IH]; intros [|a p] f D HV; auto. cbn [givens]. apply IH; [|intros; apply HV; now right].
    assert (Hv : dep P (bvar v)) by (apply dep_var; apply HV; now left).
    unfold given, literal. destruct (_ =? _)%char; [apply dep_and; auto; now apply dep_not|].
    destruct (_ =? _)%char; auto. now apply dep_and.
  Qed.

  Lemma dep_givens_pre p : dep (isPreV c) (givens (map (fun k => 2 * k) (shellVars c)) p btrue).
  Proof.
    apply dep_givens; [apply dep_true|]. intros v Hv. apply in_map_iff in Hv. destruct Hv as (k & <- & Hin).
    apply (in_shellVars c) in Hin. split; [rewrite (nvars_spec c Hk); lia|]. now rewrite Nat.even_mul.
  Qed.

  (** No value is given. *)
  Lemma isTrue_givens p : length p = length (shellVars c) ->
    isTrue (givens (map (fun k => 2 * k) (shellVars c)) p btrue) = true <-> forall a, In a p -> a <> "0"%char /\ a <> "1"%char.
  Proof.
    intros HL. rewrite isTrue_spec. split.
    - intros H. assert (F : forall s, fits (shellVars c) p s) by (intros s; apply givens_pos; auto; apply H). clear H.
      unfold fits in F. revert p HL F. generalize (shellVars c) as l. induction l as [|k l IH]; intros [|a p] HL F; try discriminate; [now intros a []|].
      injection HL as HL. intros a' [<-|Hin].
      + split; intros ->.
        * specialize (F (fun _ => true)). inversion F; subst. now destruct H2 as [H2 _]; specialize (H2 eq_refl).
        * specialize (F (fun _ => false)). inversion F; subst. now destruct H2 as [_ H2]; specialize (H2 eq_refl).
      + apply (IH p HL); auto. intros s. specialize (F s). now inversion F.
    - intros H e. apply givens_spec; [now rewrite map_length|]. split; [apply eval_true|].
      revert p HL H. generalize (shellVars c) as l. induction l as [|k l IH]; intros [|a p] HL H; try discriminate; cbn [map]; constructor.
      + destruct (H a) as [H1 H2]; [now left|]. split; intros E; contradiction.
      + apply IH; [now injection HL|]. intros a' Hin. apply H. now right.
  Qed.
End POS.

(** ** What is computed at the beginning *)
Lemma start_cases alg c t : wf c -> startShell alg c = Some t ->
  dep (isPreV c) (t_winning t) /\
  (t_realizable t = true -> realizable (game_of c) /\ forall s, pos (t_winning t) s = true <-> winning (game_of c) s) /\
  (t_realizable t = false -> ~ realizable (game_of c) /\ forall s, pos (t_winning t) s = true <-> ~ winning (game_of c) s).
Proof.
  intros Hwf. destruct (startShell_cases alg c Hwf) as (w & d & L & E & HX & Hw & HL & V).
  unfold startShell. rewrite E, V. destruct (check_cases c Hwf) as [[C R]|[C R]]; rewrite C.
  - injection 1 as <-. cbn [t_winning t_realizable]. split; auto. split; [|discriminate]. intros _. split; auto.
    now apply exact_winning.
  - destruct (counter_spec c Hwf) as (K & d' & E' & _). rewrite E'. injection 1 as <-. cbn [t_winning t_realizable].
    split; [apply dep_not; now apply pre_iterZ|]. split; [discriminate|]. intros _. split.
    + intros (f & Hf). destruct (R f) as (x & Hx). elim Hx. apply Hf.
    + destruct (compute_spec c Hwf) as (w' & d1 & E1 & S1). pose proof (solved_exact c w' d1 Hwf S1) as HX1.
      pose proof (counter_dual c) as D. rewrite E', E1 in D. subst w'.
      intros s. rewrite <- (exact_winning c _ HX1). rewrite !pos_not. destruct (pos (iterZ c K) s); cbn; split; auto; try discriminate; try (intros H; now elim H).
Qed.

Section INIT.
  Variable c : ctx.
  Hypothesis Hwf : wf c.
  Variable t : table.
  Let Hk := wf_kinds c Hwf.
  Variable p : list ascii.
  Hypothesis HL : length p = length (shellVars c).
  Hypothesis HW : dep (isPreV c) (t_winning t).

  Let forced := givens (map (fun k => 2 * k) (shellVars c)) p btrue.
  Definition atLevel (l : list BF) (s : state) : Prop := fits (shellVars c) p s /\ Forall (fun f => pos f s = true) l.
  Definition initLevel (l : list BF) : BF := fold_left band l (band (initEnv c) forced).

  Lemma dep_initLevel l : Forall (dep (isPreV c)) l -> dep (isPreV c) (initLevel l).
  Proof.
    unfold initLevel. intros H.
    assert (D : dep (isPreV c) (band (initEnv c) forced)).
    { apply dep_and; [|now apply dep_givens_pre]. eapply dep_weaken; [|apply (wf_initEnv c Hwf)]. now intros v []. }
    revert D. generalize (band (initEnv c) forced). induction H as [|f l Hf _ IH]; intros g D; auto.
    cbn [fold_left]. apply IH. now apply dep_and.
  Qed.

  Lemma pos_initLevel l s : atLevel (initEnv c :: l) s <-> pos (initLevel l) s = true.
  Proof.
    unfold initLevel, atLevel.
    assert (X : forall l g, pos (fold_left band l g) s = true <-> pos g s = true /\ Forall (fun f => pos f s = true) l).
    { clear. induction l as [|f l IH]; intros g; cbn [fold_left].
      - split; [intros; split; auto; constructor|tauto].
      - rewrite IH, pos_and, andb_true_iff. split.
        + intros [[H1 H2] H3]. auto.
        + intros [H1 H2]. inversion H2; subst; auto. }
    rewrite X, pos_and, andb_true_iff. unfold forced. rewrite (givens_pos c p s HL). split.
    - intros [H1 H2]. inversion H2; subst. auto.
    - intros [[H1 H2] H3]. split; auto.
  Qed.

  Definition levelsFor (l : list (ascii * ascii * list BF)) : list (ascii * ascii * BF) :=
    map (fun e => (fst e, initLevel (snd e))) l.
  Definition levelsOf (l : list (ascii * ascii * list BF)) : list (ascii * ascii * (state -> Prop)) :=
    map (fun e => (fst e, atLevel (initEnv c :: snd e))) l.

  (** Filling a level. *)
  Lemma fill_level ls l : proper (levelsFor ls) -> Forall (dep (isPreV c)) l ->
    Forall (fun e => exists l', l = snd e ++ l') ls ->
    isFalse (initLevel l) = false ->
    exists out f s, fill (initLevel l) (map (fun k => 2 * k) (shellVars c)) (map (letter (levelsFor ls)) (map (fun k => 2 * k) (shellVars c))) = Next (out, f) /\
      atLevel (initEnv c :: l) s /\ marked (shellVars c) (levelsOf ls) s out.
  Proof.
    intros HP HD HF HN.
    assert (S : forall e, eval (initLevel l) e = true -> Forall (fun x => eval (snd x) e = true) (levelsFor ls)).
    { intros e He. unfold levelsFor. apply Forall_map. cbn [snd]. rewrite Forall_forall in HF |- *. intros x Hx.
      destruct (HF x Hx) as (l' & ->). unfold initLevel in He |- *. rewrite fold_left_app in He.
      revert He. clear. generalize (fold_left band (snd x) (band (initEnv c) forced)). induction l' as [|a l' IH]; intros g; auto.
      cbn [fold_left]. intros H. apply IH in H. rewrite eval_and in H. now apply andb_true_iff in H. }
    destruct (fill_marks _ _ (map (fun k => 2 * k) (shellVars c)) HP HN S) as (out & f' & e & E & H1 & _ & H3).
    exists out, f', (fun k => e (2 * k)). split; auto. split.
    - apply pos_initLevel. rewrite <- eval_pre with (c := c); auto. now apply dep_initLevel.
    - apply (marked_pos c (levelsFor ls)); auto. unfold levelsFor, levelsOf. clear - HF HD HL Hk Hwf.
      induction HF as [|x ls (l' & ->) _ IH]; cbn [map]; constructor; auto. cbn [fst snd]. split; auto. split.
      + apply dep_initLevel. apply Forall_app in HD. tauto.
      + intros s. apply pos_initLevel.
  Qed.
End INIT.

Lemma markOf_ext Ls Ms k b m : Forall2 (fun (l l' : ascii * ascii * (state -> Prop)) => fst l = fst l' /\ forall s, snd l s <-> snd l' s) Ls Ms ->
  markOf Ls k b m -> markOf Ms k b m.
Proof.
  induction 1 as [|[[lo up] P] [[lo' up'] Q] Ls Ms (H1 & H2) _ IH]; auto. cbn [fst snd] in *. injection H1 as <- <-.
  cbn [markOf]. unfold forces. intros [[H3 H4]|[H3 H4]]; [left|right]; (split; [|auto]).
  - intros s Hs. apply H3. now apply H2.
  - intros (b' & H5). apply H3. exists b'. intros s Hs. apply H5. now apply H2.
Qed.
Lemma marked_ext vars Ls Ms s out : Forall2 (fun (l l' : ascii * ascii * (state -> Prop)) => fst l = fst l' /\ forall s, snd l s <-> snd l' s) Ls Ms ->
  marked vars Ls s out -> marked vars Ms s out.
Proof. intros H. unfold marked. induction 1; constructor; auto. eapply markOf_ext; eauto. Qed.
