(** * The interactive shell: undefined behaviour, exceptions and endless loops *)

From Coq Require Import String Ascii NArith ZArith Arith List Bool Lia.
From Verif Require Import BDD Loop Spec VarTypes Synth Sem Verdict Solvers SolversProofs AutSpec Explicit ExplicitProofs
  Counter CounterData Parser ShellSpec Shell ShellText ShellProofs.
Import ListNotations.
Local Open Scope list_scope.

Section SAFE.
  Variable rand : nat -> bool.
  Variable c : ctx.
  Variable t : table.
  Local Notation M := (length (livenessGuarantees c)).
  Hypothesis Mpos : 0 < M.

  Lemma jump_total j comb : j < M -> exists j', jump (S M) c j j true comb = Some j' /\ j' < M.
  Proof.
    intros Hj. set (test := fun i => negb (isFalse (band (nth i (livenessGuarantees c) bfalse) comb))).
    destruct (jumpS_spec M test j Hj (S M) 0 eq_refl) as (d & Hd & E & _); [lia|lia|].
    rewrite Nat.add_0_r, (Nat.mod_small j M Hj) in E. cbn [Nat.eqb] in E.
    exists ((j + d) mod M). split; [|apply Nat.mod_upper_bound; lia].
    rewrite <- E. apply jump_S; auto.
  Qed.

  (** Not an abnormal end. *)
  Definition fine {A} (o : outcome A) : Prop := match o with Next _ | Returned | Uninitialised => True | _ => False end.

  Lemma makeTrans_fine rnd s x : sh_goal s < M -> M <= length (t_strategies t) ->
    exists r s', makeTrans rnd c t s x = Next (r, s') /\ sh_goal s' < M.
  Proof.
    intros Hg HM. unfold makeTrans. destruct (isFalse _); [eauto|].
    destruct (nth_error (t_strategies t) (sh_goal s)) as [f|] eqn:E.
    2:{ apply nth_error_None in E. lia. }
    destruct (match rnd with None => _ | Some rand => _ end) as [comb k].
    destruct (jump_total (sh_goal s) comb Hg) as (j' & -> & Hj). eauto.
  Qed.

  Lemma meetsN_fine n l f : n <= length l -> meetsN n l f = Next (meets (firstn n l) f).
  Proof. intros H. unfold meetsN. apply Nat.leb_le in H. now rewrite H. Qed.

  Lemma readUInt_none i : fst (readUInt i) = None -> failed (snd (readUInt i)) = true.
  Proof.
    unfold readUInt. destruct (good i); cbn [negb]; [|auto].
    destruct (skipWs (chars i)) as [|a s]; [auto|].
    destruct (a =? "-")%char; [|destruct (a =? "+")%char]; destruct (takeDigits 0 false _) as [[n seen] rest];
      destruct (negb seen); try discriminate; destruct (_ <=? _)%N; discriminate.
  Qed.

  Lemma checkTrans_fine s i : M <= length (t_strategies t) ->
    exists r i', checkTrans c t s i = Next (r, s, i').
  Proof.
    intros HM. unfold checkTrans. destruct (readValues (varsT c Pre) i) as [l1 i1].
    destruct (readValues (varsT c Post) i1) as [l2 i2]. rewrite meetsN_fine by auto. cbn [obind]. eauto.
  Qed.

  Lemma move_fine s i : M <= length (t_strategies t) ->
    exists r s' i', move c t s i = Next (r, s', i') /\ sh_goal s' = sh_goal s.
  Proof.
    intros HM. unfold move. destruct (bf_eqb _ _); [eauto 6|].
    pose proof (readUInt_none i) as HN. destruct (readUInt i) as [n i1]. cbn [fst snd] in HN.
    destruct (failed i1) eqn:EF; [eauto 6|]. destruct n as [n|]; [|now specialize (HN eq_refl)].
    destruct (N.leb_spec (N.of_nat M) n) as [H|H]; [eauto 6|].
    destruct (isFalse _); [eauto 6|]. destruct (readValues (varsT c PostInput) i1) as [l i2].
    destruct (nth_error (t_strategies t) (N.to_nat n)) as [f|] eqn:E.
    2:{ apply nth_error_None in E. lia. }
    destruct (isFalse (band (band (sh_pos s) (cubeOfValues l)) f)); [eauto 6|].
    rewrite meetsN_fine by auto. cbn [obind]. eauto 6.
  Qed.

  Lemma readBits_fine vars : forall f i, (exists r, readBits vars f i = Next r) \/ readBits vars f i = Uninitialised.
  Proof.
    induction vars as [|v vars IH]; intros f i; cbn [readBits]; [eauto|].
    destruct (readChar i) as [[a|] j]; [apply IH|auto].
  Qed.

  Lemma fill_fine vars : forall f marks, isFalse f = false -> exists r, fill f vars marks = Next r.
  Proof.
    induction vars as [|v vars IH]; intros f [|m marks] Hf; cbn [fill]; eauto.
    destruct (m =? ".")%char.
    - destruct (isFalse (band f (bnot (bvar v)))) eqn:E0; cbn [negb].
      + destruct (isFalse (band f (bvar v))) eqn:E1; cbn [negb].
        * exfalso. apply isFalse_false in Hf. destruct Hf as (e & He). rewrite isFalse_spec in E0, E1.
          specialize (E0 e). specialize (E1 e). rewrite eval_and, He in E0, E1. rewrite eval_not in E0.
          rewrite eval_var in E0, E1. destruct (e v); discriminate.
        * destruct (IH _ marks E1) as (r & ->). cbn. eauto.
      + destruct (IH _ marks E0) as (r & ->). cbn. eauto.
    - destruct (IH f marks Hf) as (r & ->). cbn. eauto.
  Qed.

  Lemma completeInit_fine forced : exists r, completeInit c t forced = Next r.
  Proof.
    unfold completeInit. cbv zeta.
    destruct (isFalse (band (initEnv c) forced)) eqn:E1; [eauto|].
    match goal with |- context[isFalse (band ?f (if t_realizable t then initSys c else _))] => destruct (isFalse (band f (if t_realizable t then initSys c else t_winning t))) eqn:E2 end.
    - destruct (_ || _); [|eauto]. match goal with |- context[fill ?f ?v ?m] => destruct (fill_fine v f m E1) as (r & ->) end. cbn. eauto.
    - match goal with |- context[isFalse (band ?f (if t_realizable t then t_winning t else _))] => destruct (isFalse (band f (if t_realizable t then t_winning t else initSys c))) eqn:E3 end.
      + destruct (t_realizable t); [eauto|]. match goal with |- context[fill ?f ?v ?m] => destruct (fill_fine v f m E2) as (r & ->) end. cbn. eauto.
      + match goal with |- context[fill ?f ?v ?m] => destruct (fill_fine v f m E3) as (r & ->) end. cbn. eauto.
  Qed.

  Lemma nthN_some {A} (l : list A) : forall k, (k < N.of_nat (length l))%N -> exists a, nthN l k = Some a.
  Proof.
    induction l as [|a l IH]; intros k Hk; cbn [nthN length] in *; [lia|].
    destruct (N.eqb_spec k 0); [eauto|]. apply IH. lia.
  Qed.

  Lemma strategyTransition_thrown from forced a g : strategyTransition c t from forced a g <> Thrown /\
    strategyTransition c t from forced a g <> Loops.
  Proof.
    unfold strategyTransition. cbv zeta.
    destruct (isFalse _) eqn:E1; [split; discriminate|].
    destruct (if t_realizable t then _ else _) as [f|]; [|split; discriminate].
    match goal with |- context[isFalse (band ?x f)] => destruct (isFalse (band x f)) eqn:E2 end.
    - destruct (t_realizable t); [|split; discriminate]. match goal with |- context[fill ?f ?v ?m] => destruct (fill_fine v f m E1) as (r & ->) end. split; discriminate.
    - destruct (if t_realizable t then _ else Some _) as [h|]; [|split; discriminate].
      match goal with |- context[isFalse (band ?x h)] => destruct (isFalse (band x h)) eqn:E3 end.
      + destruct (t_realizable t); [split; discriminate|]. match goal with |- context[fill ?f ?v ?m] => destruct (fill_fine v f m E2) as (r & ->) end. split; discriminate.
      + match goal with |- context[fill ?f ?v ?m] => destruct (fill_fine v f m) as (r & ->) end.
        * match goal with |- isFalse (if ?b then _ else _) = false => destruct b eqn:E4; auto end.
        * cbn [obind]. destruct (nthN (livenessAssumptions c) a), (nthN (livenessGuarantees c) g); split; discriminate.
  Qed.

  Lemma strategyTransition_bounds from forced a g :
    (a < N.of_nat (length (livenessAssumptions c)))%N -> (g < N.of_nat M)%N ->
    (if t_realizable t then M <= length (t_strategies t) else length (livenessAssumptions c) <= length (t_strategies t)) ->
    exists r, strategyTransition c t from forced a g = Next r.
  Proof.
    intros Ha Hg HS. pose proof (strategyTransition_thrown from forced a g) as [T1 T2].
    assert (K : strategyTransition c t from forced a g <> OutOfBounds /\ strategyTransition c t from forced a g <> Returned /\
                strategyTransition c t from forced a g <> Uninitialised).
    { clear T1 T2. unfold strategyTransition. cbv zeta.
      destruct (nthN_some (livenessAssumptions c) a Ha) as (fa & ->).
      destruct (nthN_some (livenessGuarantees c) g Hg) as (fg & ->).
      destruct (isFalse _) eqn:E1; [repeat split; discriminate|].
      assert (B : exists f, (if t_realizable t then Some (safetySys c) else nthN (t_strategies t) a) = Some f).
      { destruct (t_realizable t); [eauto|]. apply nthN_some. lia. }
      destruct B as (f & ->).
      assert (B : exists h, (if t_realizable t then nthN (t_strategies t) g else Some (safetySys c)) = Some h).
      { destruct (t_realizable t); [|eauto]. apply nthN_some. lia. }
      destruct B as (h & ->).
      match goal with |- context[isFalse (band ?x f)] => destruct (isFalse (band x f)) eqn:E2 end.
      - destruct (t_realizable t); [|repeat split; discriminate].
        match goal with |- context[fill ?f ?v ?m] => destruct (fill_fine v f m E1) as (r & ->) end. repeat split; discriminate.
      - match goal with |- context[isFalse (band ?x h)] => destruct (isFalse (band x h)) eqn:E3 end.
        + destruct (t_realizable t); [repeat split; discriminate|].
          match goal with |- context[fill ?f ?v ?m] => destruct (fill_fine v f m E2) as (r & ->) end. repeat split; discriminate.
        + match goal with |- context[fill ?f ?v ?m] => destruct (fill_fine v f m) as (r & ->) end.
          * match goal with |- isFalse (if ?b then _ else _) = false => destruct b eqn:E4; auto end.
          * cbn [obind]. repeat split; discriminate. }
    destruct K as (K1 & K2 & K3).
    destruct (strategyTransition c t from forced a g); try contradiction. eauto.
  Qed.

  (** All commands, if there are enough strategies. *)
  Lemma exec_goal cmd s i r s' i' : sh_goal s < M -> exec rand c t cmd s i = Next (r, s', i') -> sh_goal s' < M.
  Proof.
    intros Hg. unfold exec. destruct (_ || _); [discriminate|].
    destruct (String.eqb _ _). { unfold startPos. now injection 1 as <- <- <-. }
    destruct (String.eqb _ _).
    { unfold checkTrans. destruct (readValues (varsT c Pre) i) as [l1 i1].
      destruct (readValues (varsT c Post) i1) as [l2 i2]. intros H. apply obind_next in H. destruct H as (p & _ & H).
      now injection H as <- <- <-. }
    destruct (String.eqb _ _).
    { unfold setPos. destruct (readValues (varsT c Pre) i) as [l1 i1]. now injection 1 as <- <- <-. }
    destruct (String.eqb _ _).
    { unfold move. destruct (bf_eqb _ _); [now injection 1 as <- <- <-|].
      destruct (readUInt i) as [n i1].
      destruct (failed i1); [now injection 1 as <- <- <-|]. destruct n as [n|]; [|discriminate].
      destruct (_ <=? _)%N; [now injection 1 as <- <- <-|].
      destruct (isFalse _); [now injection 1 as <- <- <-|].
      destruct (readValues (varsT c PostInput) i1) as [l i2].
      destruct (nth_error _ _); [|discriminate]. destruct (isFalse (band (band (sh_pos s) (cubeOfValues l)) b)).
      - now injection 1 as <- <- <-.
      - intros H. apply obind_next in H. destruct H as (p & _ & H). now injection H as <- <- <-. }
    assert (MT : forall rnd x q, makeTrans rnd c t s x = Next q -> sh_goal (snd q) < M).
    { intros rnd x q. unfold makeTrans. destruct (isFalse _); [now injection 1 as <-|].
      destruct (nth_error _ _); [|discriminate].
      destruct (match rnd with None => _ | Some rand => _ end) as [comb k].
      destruct (jump_total (sh_goal s) comb Hg) as (j' & -> & Hj). now injection 1 as <-. }
    destruct (String.eqb _ _).
    { destruct (negb _); [discriminate|]. intros H. apply obind_next in H. destruct H as ([f j] & E & H).
      apply obind_next in H. destruct H as (q & Q & H). apply MT in Q. now injection H as -> <-. }
    destruct (String.eqb _ _).
    { intros H. apply obind_next in H. destruct H as ([f j] & E & H).
      apply obind_next in H. destruct H as (q & Q & H). apply MT in Q. now injection H as -> <-. }
    destruct (String.eqb _ _); [now injection 1 as <- <- <-|].
    destruct (String.eqb _ _); [now injection 1 as <- <- <-|].
    destruct (String.eqb _ _); [now injection 1 as <- <- <-|].
    destruct (String.eqb _ _). { unfold getInit. now injection 1 as <- <- <-. }
    destruct (String.eqb _ _).
    { intros H. apply obind_next in H. destruct H as ([f j] & E & H).
      apply obind_next in H. destruct H as (q & _ & H). now injection H as <- <- <-. }
    destruct (String.eqb _ _); [|now injection 1 as <- <- <-].
    intros H. apply obind_next in H. destruct H as ([f j] & E & H).
    apply obind_next in H. destruct H as ([f' j'] & E' & H). cbn [fst snd] in *.
    destruct (readUInt j') as [a j1]. destruct (readUInt j1) as [g j2].
    destruct a as [a|], g as [g|]; try discriminate. apply obind_next in H. destruct H as (q & _ & H).
    now injection H as <- <- <-.
  Qed.

  Lemma exec_cases cmd s i : sh_goal s < M ->
    match exec rand c t cmd s i with
    | Thrown => cmd = "XMAKETRANS"%string /\ t_realizable t = false
    | OutOfBounds => cmd = "XSTRATEGYTRANSITION"%string \/ length (t_strategies t) < M
    | Loops => False
    | _ => True
    end.
  Proof.
    intros Hg. unfold exec. destruct (_ || _); [exact I|].
    destruct (String.eqb _ _). { exact I. }
    destruct (String.eqb _ _).
    { unfold checkTrans. destruct (readValues (varsT c Pre) i) as [l1 i1].
      destruct (readValues (varsT c Post) i1) as [l2 i2]. unfold meetsN. destruct (Nat.leb_spec M (length (t_strategies t))); cbn [obind]; auto. }
    destruct (String.eqb _ _). { exact I. }
    destruct (String.eqb _ _).
    { destruct (Nat.le_gt_cases M (length (t_strategies t))) as [H|H].
      - destruct (move_fine s i H) as (r & s' & i' & -> & _). exact I.
      - unfold move. destruct (bf_eqb _ _); [exact I|]. destruct (readUInt i) as [n i1].
        destruct (failed i1); [exact I|]. destruct n as [n|]; [|exact I].
        destruct (_ <=? _)%N; [exact I|]. destruct (isFalse _); [exact I|].
        destruct (readValues (varsT c PostInput) i1) as [l i2].
        destruct (nth_error _ _); auto. destruct (isFalse (band (band (sh_pos s) (cubeOfValues l)) b)); [exact I|].
        unfold meetsN. destruct (Nat.leb _ _); cbn [obind]; auto. }
    assert (MT : forall rnd x, match makeTrans rnd c t s x with Next _ => True | OutOfBounds => length (t_strategies t) < M | _ => False end).
    { intros rnd x. destruct (Nat.le_gt_cases M (length (t_strategies t))) as [H|H].
      - destruct (makeTrans_fine rnd s x Hg H) as (r & s' & -> & _). exact I.
      - unfold makeTrans. destruct (isFalse _); [exact I|]. destruct (nth_error _ _); auto.
        destruct (match rnd with None => _ | Some rand => _ end) as [comb k].
        destruct (jump_total (sh_goal s) comb Hg) as (j' & -> & Hj). exact I. }
    destruct (String.eqb_spec cmd "XMAKETRANS").
    { destruct (t_realizable t); cbn [negb]; [|auto].
      destruct (readBits_fine (varsT c PostInput) btrue i) as [([f j] & ->)| ->]; cbn [obind fst snd]; auto.
      specialize (MT None f). destruct (makeTrans None c t s f); cbn [obind]; tauto. }
    destruct (String.eqb _ _).
    { destruct (readBits_fine (varsT c PostInput) btrue i) as [([f j] & ->)| ->]; cbn [obind fst snd]; auto.
      specialize (MT (Some rand) f). destruct (makeTrans (Some rand) c t s f); cbn [obind]; tauto. }
    destruct (String.eqb _ _); [exact I|].
    destruct (String.eqb _ _); [exact I|].
    destruct (String.eqb _ _); [exact I|].
    destruct (String.eqb _ _); [exact I|].
    destruct (String.eqb _ _).
    { destruct (readBits_fine (varsT c PreInput ++ varsT c PreOutput) btrue i) as [([f j] & ->)| ->]; cbn [obind fst snd]; auto.
      destruct (completeInit_fine f) as (r & ->). exact I. }
    destruct (String.eqb_spec cmd "XSTRATEGYTRANSITION"); [|exact I].
    destruct (readBits_fine (varsT c PreInput ++ varsT c PreOutput) btrue i) as [([f j] & ->)| ->]; cbn [obind fst snd]; auto.
    destruct (readBits_fine (varsT c PostInput ++ varsT c PostOutput) btrue j) as [([f' j'] & ->)| ->]; cbn [obind fst snd]; auto.
    destruct (readUInt j') as [a j1]. destruct (readUInt j1) as [g j2].
    destruct a as [a|], g as [g|]; auto. pose proof (strategyTransition_thrown f f' a g) as [T1 T2].
    destruct (strategyTransition c t f f' a g); cbn [obind]; auto; congruence.
  Qed.
End SAFE.

(** ** Reading the next command *)
Lemma nextCommand_cases fuel : forall i, slen (chars i) + 2 <= fuel ->
  match nextCommand fuel i with
  | Next _ | Returned => True
  | Loops => failed i = true /\ ended i = false
  | _ => False
  end.
Proof.
  induction fuel as [|fuel IH]; intros i Hi; [lia|]. cbn [nextCommand].
  destruct (getline i) as [l j] eqn:E.
  destruct (ended j) eqn:Ej; [exact I|]. destruct l as [l|].
  - destruct (getline_len i l j E Ej) as [H1 H2]. destruct l as [|a l]; [|exact I].
    specialize (IH j ltac:(lia)). destruct (nextCommand fuel j); auto. rewrite H2 in IH. now destruct IH.
  - unfold getline in E. destruct (good i) eqn:G; cbn [negb] in E.
    + destruct (chars i) as [|a s]; [discriminate|]. destruct (takeLine _) as [l [r|]]; discriminate.
    + injection E as <-. cbn in Ej. unfold good in G. rewrite Ej in *. destruct (failed i); auto; discriminate.
Qed.

(** ** Executions *)

(** The states of the shell between two commands. *)
Inductive reached (rand : nat -> bool) (c : ctx) (t : table) (input : string) : shell -> stream -> Prop :=
| reached_start : reached rand c t input (mkShell bfalse 0 0) (mkStream input false false)
| reached_next s i l j r s' i' : reached rand c t input s i ->
    nextCommand (S (S (slen (chars i)))) i = Next (l, j) ->
    exec rand c t (toUpper (trim l)) s j = Next (r, s', i') -> reached rand c t input s' i'.

(** The command [cmd] is carried out at some time when [input] is typed in. *)
Definition issued (alg : algorithm) (rand : nat -> bool) (c : ctx) (input cmd : string) : Prop :=
  exists t s i l j, startShell alg c = Some t /\ reached rand c t input s i /\
    nextCommand (S (S (slen (chars i)))) i = Next (l, j) /\ cmd = toUpper (trim l).

Lemma sess_last rand c t input : forall s i, reached rand c t input s i ->
  exists s' i', reached rand c t input s' i' /\
    match oneCommand rand c t s' i' with Next _ => False | o => snd (sess rand c t s i) = endingOf o end.
Proof.
  intros s i. remember (slen (chars i)) as n eqn:E. revert s i E.
  induction n as [n IH] using lt_wf_ind. intros s i -> HR. rewrite sess_eq.
  destruct (oneCommand rand c t s i) as [[[r s'] i']| | | | |] eqn:E;
    try (exists s, i; split; [exact HR|]; rewrite E; reflexivity).
  pose proof (oneCommand_len _ _ _ _ _ _ _ _ E) as HL. cbn [snd].
  apply (IH _ HL s' i' eq_refl). unfold oneCommand in E. apply obind_next in E. destruct E as ([l j] & E1 & E2).
  eapply reached_next; eauto.
Qed.

Lemma reached_goal rand c t input s i : 0 < length (livenessGuarantees c) -> reached rand c t input s i ->
  sh_goal s < length (livenessGuarantees c).
Proof.
  intros HM. induction 1 as [|s i l j r s' i' _ IH _ E]; [exact HM|]. eapply exec_goal; eauto.
Qed.

(** Commands that cannot make the stream fail. *)
Definition readsNumbers (cmd : string) : Prop :=
  In cmd ["CHECKTRANS"; "SETPOS"; "MOVE"; "XSTRATEGYTRANSITION"]%string.
Definition readsBits (cmd : string) : Prop :=
  In cmd ["XMAKETRANS"; "XMAKETRANSRANDOM"; "XCOMPLETEINIT"; "XSTRATEGYTRANSITION"]%string.

Lemma readChar_failed i a j : readChar i = (Some a, j) -> failed i = false -> failed j = false.
Proof.
  unfold readChar. destruct (good i); cbn [negb]; [|discriminate].
  destruct (skipWs (chars i)); [discriminate|]. injection 1 as _ <-. auto.
Qed.

Lemma readBits_failed vars : forall f i r, readBits vars f i = Next r -> failed i = false -> failed (snd r) = false.
Proof.
  induction vars as [|v vars IH]; intros f i r; cbn [readBits]; [now injection 1 as <-|].
  destruct (readChar i) as [[a|] j] eqn:E; [|discriminate]. intros H Hi. apply IH in H; auto. eapply readChar_failed; eauto.
Qed.

Lemma exec_failed rand c t cmd s i r s' i' : ~ readsNumbers cmd -> exec rand c t cmd s i = Next (r, s', i') ->
  failed i = false -> failed i' = false.
Proof.
  unfold readsNumbers. intros HN. unfold exec. destruct (_ || _); [discriminate|].
  destruct (String.eqb _ _). { now injection 1 as <- <- <-. }
  destruct (String.eqb_spec cmd "CHECKTRANS"); [subst; cbn in HN; tauto|].
  destruct (String.eqb_spec cmd "SETPOS"); [subst; cbn in HN; tauto|].
  destruct (String.eqb_spec cmd "MOVE"); [subst; cbn in HN; tauto|].
  destruct (String.eqb _ _).
  { destruct (negb _); [discriminate|]. intros H. apply obind_next in H. destruct H as (q & E & H).
    apply obind_next in H. destruct H as (q' & _ & H). injection H as _ <-. exact (readBits_failed _ _ _ _ E). }
  destruct (String.eqb _ _).
  { intros H. apply obind_next in H. destruct H as (q & E & H).
    apply obind_next in H. destruct H as (q' & _ & H). injection H as _ <-. exact (readBits_failed _ _ _ _ E). }
  destruct (String.eqb _ _); [now injection 1 as <- <- <-|].
  destruct (String.eqb _ _); [now injection 1 as <- <- <-|].
  destruct (String.eqb _ _); [now injection 1 as <- <- <-|].
  destruct (String.eqb _ _); [now injection 1 as <- <- <-|].
  destruct (String.eqb _ _).
  { intros H. apply obind_next in H. destruct H as (q & E & H).
    apply obind_next in H. destruct H as (q' & _ & H). injection H as _ _ <-. exact (readBits_failed _ _ _ _ E). }
  destruct (String.eqb_spec cmd "XSTRATEGYTRANSITION"); [subst; cbn in HN; tauto|now injection 1 as <- <- <-].
Qed.

Lemma exec_uninit rand c t cmd s i : exec rand c t cmd s i = Uninitialised -> readsBits cmd.
Proof.
  unfold readsBits. unfold exec. destruct (_ || _); [discriminate|].
  destruct (String.eqb _ _); [discriminate|].
  destruct (String.eqb _ _).
  { unfold checkTrans. destruct (readValues (varsT c Pre) i) as [l1 i1]. destruct (readValues (varsT c Post) i1) as [l2 i2].
    unfold meetsN. destruct (Nat.leb _ _); discriminate. }
  destruct (String.eqb _ _); [discriminate|].
  destruct (String.eqb _ _).
  { unfold move. destruct (bf_eqb _ _); [discriminate|]. pose proof (readUInt_none i) as HN. destruct (readUInt i) as [n i1].
    cbn [fst snd] in HN. destruct (failed i1) eqn:EF; [discriminate|]. destruct n as [n|]; [|now specialize (HN eq_refl)].
    destruct (_ <=? _)%N; [discriminate|]. destruct (isFalse _); [discriminate|].
    destruct (readValues (varsT c PostInput) i1) as [l i2].
    destruct (nth_error _ _); [|discriminate]. destruct (isFalse (band (band (sh_pos s) (cubeOfValues l)) b)); [discriminate|].
    unfold meetsN. destruct (Nat.leb _ _); discriminate. }
  destruct (String.eqb_spec cmd "XMAKETRANS"); [subst; cbn; tauto|].
  destruct (String.eqb_spec cmd "XMAKETRANSRANDOM"); [subst; cbn; tauto|].
  do 4 (destruct (String.eqb _ _); [discriminate|]).
  destruct (String.eqb_spec cmd "XCOMPLETEINIT"); [subst; cbn; tauto|].
  destruct (String.eqb_spec cmd "XSTRATEGYTRANSITION"); [subst; cbn; tauto|discriminate].
Qed.

Lemma reached_failed alg rand c t input s i : startShell alg c = Some t ->
  (forall cmd, issued alg rand c input cmd -> ~ readsNumbers cmd) -> reached rand c t input s i -> failed i = false.
Proof.
  intros HS HN. induction 1 as [|s i l j r s' i' HR IH E1 E2]; [reflexivity|].
  apply nextCommand_len in E1 as E3. eapply exec_failed; [|exact E2|tauto].
  apply HN. exists t, s, i, l, j. auto.
Qed.

Lemma strategies_count alg c t : wf c -> startShell alg c = Some t ->
  length (t_strategies t) = (if t_realizable t then length (livenessGuarantees c) else length (livenessAssumptions c)) /\
  (t_realizable t = true <-> realizable (game_of c)).
Proof.
  intros Hwf HS. destruct (startShell_cases alg c Hwf) as (w & d & L & E & HX & Hw & HL & V).
  unfold startShell in HS. rewrite E, V in HS.
  destruct (check_cases c Hwf) as [[C R]|[C R]]; rewrite C in HS.
  - injection HS as <-. cbn [t_strategies t_realizable]. rewrite map_length, seq_length. tauto.
  - destruct (computeCounter c) as [[w' d']|]; [|discriminate]. injection HS as <-. cbn [t_strategies t_realizable].
    rewrite map_length, seq_length. split; auto. split; [discriminate|].
    intros (f & Hf). destruct (R f) as (x & Hx). now elim Hx.
Qed.

Lemma start_total alg c : wf c -> exists t, startShell alg c = Some t.
Proof.
  intros Hwf. destruct (startShell_cases alg c Hwf) as (w & d & L & E & HX & Hw & HL & V).
  unfold startShell. rewrite E, V. destruct (check_cases c Hwf) as [[C R]|[C R]]; rewrite C; [eauto|].
  destruct (counter_spec c Hwf) as (K & d' & E' & _). rewrite E'. eauto.
Qed.
