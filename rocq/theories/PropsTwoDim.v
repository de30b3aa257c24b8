(** * Properties of --twoDimensionalCost (C71-C77) *)

From Coq Require Import String Ascii ZArith Arith List Bool Lia.
From Verif Require Import BDD Loop Spec VarTypes Synth Sem FixBase SynthProofs Verdict AutSpec Explicit DetProofs ExplicitProofs ExplicitGame
  Parser ParserProofs FileSpec FileProofs PropsSynth PropsParser TwoDimSpec TwoDim TwoDimBase TwoDimProofs TwoDimSound TwoDimRun.
Import ListNotations.
Local Open Scope string_scope.
Local Open Scope list_scope.

Local Arguments isOut : simpl never.

(** ** Loaded files *)

(** Specifications that have been read have inputs and outputs only. *)
Lemma loaded_ordinary ord content c : initContext ord content = POk c -> ordinary c.
Proof.
  intros E. destruct (initContext_inv _ _ _ E) as (L & bs & _ & _ & _ & ->). unfold ordinary, finalContext. cbn [varTypes].
  unfold typesF. apply Forall_forall. intros ty H. apply in_flat_map in H. destruct H as (p & _ & H).
  destruct (fst p); cbn in *; tauto.
Qed.

(** The formulas of the cost file are about the declared variables. *)
Lemma formula_any ord c allowed line f : length (varNames c) = length (varTypes c) ->
  formula ord c allowed line = POk f -> dep (isAnyV c) f.
Proof.
  intros L H. unfold formula in H. destruct (parseFormula _ _ _ _ _) as [[b|]| | |] eqn:E; try discriminate. injection H as <-.
  apply parse_dep in E. eapply dep_weaken; [|exact E]. intros v Hv. unfold okVar, isAnyV in *. lia.
Qed.

(** What is known about the costs of a file. *)
Definition sortedKeys (m : costMap) : Prop := forall p k f q, m = p ++ (k, f) :: q -> forall e, In e q -> (k < fst e)%Z.

Lemma costAdd_in k f m : sortedKeys m -> sortedKeys (costAdd k f m) /\
  (forall e, (exists g, In (e, g) (costAdd k f m)) <-> e = k \/ exists g, In (e, g) m) /\
  (forall e s t, (exists g, In (e, g) (costAdd k f m) /\ trans g s t = true) <->
     (e = k /\ trans f s t = true) \/ exists g, In (e, g) m /\ trans g s t = true).
Proof.
  assert (SK : forall k' (g : BF) m', sortedKeys ((k', g) :: m') <-> (forall e, In e m' -> (k' < fst e)%Z) /\ sortedKeys m').
  { intros k' g m'. split.
    - intros H. split; [intros e He; apply (H [] k' g m' eq_refl e He)|]. intros p k0 f0 q E e He. apply (H ((k', g) :: p) k0 f0 q); auto. cbn. now rewrite E.
    - intros [H1 H2] p k0 f0 q E e He. destruct p as [|p0 p]; cbn in E.
      + injection E as <- <- <-. auto.
      + injection E as _ E. eapply H2; eauto. }
  induction m as [|[k' g] m IH]; intros S; cbn [costAdd].
  - split; [apply SK; split; [intros e []|intros p k0 f0 q E; destruct p; discriminate]|]. split.
    + intros e. split; [intros (h & [E|[]]); injection E as <- <-; auto|]. intros [->|(h & [])]. exists f. now left.
    + intros e s t. split; [intros (h & [E|[]] & T); injection E as <- <-; auto|]. intros [[-> T]|(h & [] & _)]. exists f. split; auto. now left.
  - apply SK in S. destruct S as [S1 S2]. destruct (IH S2) as (I1 & I2 & I3). destruct (Z.ltb_spec k k') as [L|L].
    + split; [apply SK; split|].
      * intros e [<-|He]; cbn; auto. specialize (S1 e He). lia.
      * apply SK. auto.
      * split.
        -- intros e. split; [intros (h & [E|E]); [injection E as <- <-; auto|eauto]|]. intros [->|(h & E)]; [exists f; now left|exists h; now right].
        -- intros e s t. split; [intros (h & [E|E] & T); [injection E as <- <-; auto|eauto]|].
           intros [[-> T]|(h & E & T)]; [exists f; split; auto; now left|exists h; split; auto; now right].
    + destruct (Z.ltb_spec k' k) as [L'|L'].
      * split; [apply SK; split; auto|].
        -- intros [e h] He. assert (G : exists h', In (e, h') (costAdd k f m)) by eauto. apply I2 in G. cbn.
           destruct G as [->|(h' & G)]; auto. apply (S1 _ G).
        -- split.
           ++ intros e. split; [intros (h & [E|E]); [injection E as <- <-; right; exists g; now left|]|].
              ** destruct (proj1 (I2 e) (ex_intro _ h E)) as [->|(h' & E')]; auto. right. exists h'. now right.
              ** intros [->|(h & [E|E])].
                 --- destruct (proj2 (I2 k) (or_introl eq_refl)) as (h & E). exists h. now right.
                 --- injection E as <- <-. exists g. now left.
                 --- destruct (proj2 (I2 e) (or_intror (ex_intro _ h E))) as (h' & E'). exists h'. now right.
           ++ intros e s t. split; [intros (h & [E|E] & T); [injection E as <- <-; right; exists g; split; auto; now left|]|].
              ** destruct (proj1 (I3 e s t) (ex_intro _ h (conj E T))) as [G|(h' & E' & T')]; auto. right. exists h'. split; auto. now right.
              ** intros [[-> T]|(h & [E|E] & T)].
                 --- destruct (proj2 (I3 k s t) (or_introl (conj eq_refl T))) as (h & E & T'). exists h. split; auto. now right.
                 --- injection E as <- <-. exists g. split; auto. now left.
                 --- destruct (proj2 (I3 e s t) (or_intror (ex_intro _ h (conj E T)))) as (h' & E' & T'). exists h'. split; auto. now right.
      * assert (k' = k) by lia. subst k'. split; [apply SK; auto|]. split.
        -- intros e. split; [intros (h & [E|E]); [injection E as <- <-; auto|right; exists h; now right]|].
           intros [->|(h & [E|E])]; [exists (bor g f); now left|injection E as <- <-; exists (bor g f); now left|exists h; now right].
        -- intros e s t. split.
           ++ intros (h & [E|E] & T); [injection E as <- <-|right; exists h; split; auto; now right].
              rewrite trans_or, orb_true_iff in T. destruct T as [T|T]; auto. right. exists g. split; auto. now left.
           ++ intros [[-> T]|(h & [E|E] & T)].
              ** exists (bor g f). split; [now left|]. rewrite trans_or, T. apply orb_true_r.
              ** injection E as <- <-. exists (bor g f). split; [now left|]. now rewrite trans_or, T.
              ** exists h. split; auto. now right.
Qed.

Lemma splitSpace_spec s : match splitSpace s with
  | Some (a, b) => no_space a /\ s = (a ++ String " " b)%string
  | None => no_space s
  end.
Proof.
  induction s as [|a s IH]; cbn; auto. destruct (Ascii.eqb_spec a " ") as [->|N]; cbn; auto.
  destruct (splitSpace s) as [[x y]|]; cbn; auto. destruct IH as [H ->]. auto.
Qed.

Lemma no_space_unique a b a' b' : no_space a -> no_space a' -> (a ++ String " " b = a' ++ String " " b')%string -> a = a' /\ b = b'.
Proof.
  revert a'. induction a as [|x a IH]; intros [|y a']; cbn; intros H H' E.
  - injection E as ->. auto.
  - injection E as E _. destruct H' as [H' _]. now elim H'.
  - injection E as E _. destruct H as [H _]. now elim H.
  - injection E as -> E. destruct (IH a') as [-> ->]; tauto.
Qed.
Lemma space_app a b : no_space (a ++ String " " b) -> False.
Proof. induction a as [|x a IH]; cbn; tauto. Qed.

(** The entries of a line are unique. *)
Lemma entry_split line : (exists a r, line = String a r /\ a <> "#"%char) ->
  forall n r, entry line n r <-> (n, r) = match splitSpace line with Some p => p | None => (line, line) end.
Proof.
  intros Hl n r. pose proof (splitSpace_spec line) as S. unfold entry. destruct (splitSpace line) as [[a b]|].
  - destruct S as [S E]. split.
    + intros [_ [[H E']|[H _]]]; [|rewrite E in H; elim (space_app _ _ H)].
      rewrite E in E'. destruct (no_space_unique _ _ _ _ S H E') as [-> ->]. reflexivity.
    + intros E'. injection E' as -> ->. split; auto.
  - split.
    + intros [_ [[H ->]|(H & -> & ->)]]; auto. elim (space_app _ _ S).
    + intros E'. injection E' as -> ->. split; auto.
Qed.

Section FILES.
  Variable readPreferences : string -> option weights.
  Variable readCost : string -> option Z.
  Variable ord : nat -> bool.

  (** The meaning of a formula: what the parser for formulas computes (C05). *)
  Definition parsed (c : ctx) (line : string) (phi : state -> state -> Prop) : Prop :=
    exists f, formula ord c [PreInput; PreOutput; PostInput; PostOutput] line = POk f /\ phi = (fun s t => trans f s t = true).
  Notation listedIn c := (listed readCost (parsed c)).

  Lemma costLines_spec c : length (varNames c) = length (varTypes c) -> forall lines m m',
    sortedKeys m -> Forall (fun e => dep (isAnyV c) (snd e)) m ->
    costLines readCost ord c m lines = POk m' ->
    sortedKeys m' /\ Forall (fun e => dep (isAnyV c) (snd e)) m' /\
    (forall k s t, (exists f, In (k, f) m' /\ trans f s t = true) <->
       (exists f, In (k, f) m /\ trans f s t = true) \/ listedIn c lines k s t).
  Proof.
    intros HL. induction lines as [|line lines IH]; intros m m' S D E; cbn [costLines] in E.
    - injection E as <-. split; auto. split; auto. intros k s t. split; auto. intros [H|(l & n & r & phi & [] & _)]; auto.
    - destruct (costLine readCost ord c m line) as [m1| | |] eqn:E1; try discriminate. cbn [pbind] in E.
      assert (G : sortedKeys m1 /\ Forall (fun e => dep (isAnyV c) (snd e)) m1 /\
        (forall k s t, (exists f, In (k, f) m1 /\ trans f s t = true) <->
          (exists f, In (k, f) m /\ trans f s t = true) \/ listedIn c [line] k s t)).
      { assert (Skip : ~ (exists a r, line = String a r /\ a <> "#"%char) -> m1 = m -> sortedKeys m1 /\ Forall (fun e => dep (isAnyV c) (snd e)) m1 /\
          (forall k s t, (exists f, In (k, f) m1 /\ trans f s t = true) <->
            (exists f, In (k, f) m /\ trans f s t = true) \/ listedIn c [line] k s t)).
        { intros N ->. split; auto. split; auto. intros k s t. split; auto. intros [H|(l & n & r & phi & [<-|[]] & [H _] & _)]; auto. now elim N. }
        unfold costLine in E1. destruct line as [|a line0] eqn:EL.
        { injection E1 as <-. apply Skip; auto. intros (a & r & X & _). discriminate. }
        rewrite <- EL in *. destruct (Ascii.eqb_spec a "#") as [->|Na].
        { injection E1 as <-. apply Skip; auto. intros (a & r & X & Na). rewrite EL in X. injection X as <- <-. now elim Na. }
        clear Skip. assert (HN : exists a r, line = String a r /\ a <> "#"%char) by eauto.
        pose proof (entry_split line HN) as HS. destruct (match splitSpace line with Some p => p | None => (line, line) end) as [number rest].
        destruct (readCost number) as [k0|] eqn:EK; [|discriminate].
        destruct (formula _ _ _ _) as [f| | |] eqn:EF; try discriminate. cbn [pbind] in E1. injection E1 as <-.
        destruct (costAdd_in k0 f m S) as (A1 & A2 & A3). split; auto. split.
        { apply costAdd_Forall; auto; cbn; [intros g Hg; apply dep_or; auto|]; eapply formula_any; eauto. }
        intros k s t. rewrite A3. split.
        - intros [[-> T]|H]; auto. right. exists line, number, rest, (fun s t => trans f s t = true).
          split; [now left|]. split; [now apply HS|]. split; auto. split; auto. exists f. auto.
        - intros [H|(l & n & r & phi & [<-|[]] & He & Hk & (f' & Hf & ->) & T)]; auto. left.
          apply HS in He. injection He as -> ->. rewrite EK in Hk. injection Hk as <-. rewrite EF in Hf. injection Hf as <-. auto. }
      destruct G as (S1 & D1 & G). destruct (IH m1 m' S1 D1 E) as (S2 & D2 & H2). split; auto. split; auto.
      intros k s t. rewrite H2, G. unfold listed. split.
      + intros [[H|(l & n & r & phi & [<-|[]] & H)]|(l & n & r & phi & Hl & H)]; auto; right.
        * exists line, n, r, phi. split; [now left|exact H].
        * exists l, n, r, phi. split; [now right|exact H].
      + intros [H|(l & n & r & phi & [<-|Hl] & H)]; auto.
        * left. right. exists line, n, r, phi. split; [now left|exact H].
        * right. exists l, n, r, phi. auto.
  Qed.

  Lemma loaded_lengths content c : initContext ord content = POk c -> length (varNames c) = length (varTypes c).
  Proof.
    intros E. destruct (initContext_inv _ _ _ E) as (L & bs & _ & _ & _ & ->). cbn. symmetry. apply length_types.
  Qed.

  Lemma loadCosts_inv content c costFile w m : initContext ord content = POk c ->
    loadCosts readPreferences readCost ord c costFile = POk (w, m) ->
    readPreferences (hd "" (file_lines costFile)) = Some w /\ sortedKeys m /\ Forall (fun e => dep (isAnyV c) (snd e)) m /\
    forall k s t, (exists f, In (k, f) m /\ trans f s t = true) <-> listedIn c (tl (file_lines costFile)) k s t.
  Proof.
    intros E H. unfold loadCosts in H. rewrite <- getlines_spec.
    assert (X : exists first rest, (first = hd "" (getlines costFile) /\ rest = tl (getlines costFile)) /\
      match readPreferences first with
      | None => PErr NoCategory
      | Some w => pbind (costLines readCost ord c [] rest) (fun m => POk (w, m))
      end = POk (w, m)).
    { destruct (getlines costFile) as [|l ls]; eexists _, _; (split; [split; reflexivity|]); exact H. }
    clear H. destruct X as (first & rest & [-> ->] & H). destruct (readPreferences _) as [w0|]; [|discriminate].
    destruct (costLines _ _ _ _ _) as [m0| | |] eqn:EC; try discriminate. cbn [pbind] in H. injection H as -> ->. split; auto.
    edestruct (costLines_spec c (loaded_lengths content c E) (tl (getlines costFile)) [] m) as (A1 & A2 & A3); [| |exact EC|].
    - intros p k f q X. destruct p; discriminate.
    - constructor.
    - split; auto. split; auto. intros k s t. rewrite A3. split; auto. intros [(f & [] & _)|X]; auto.
  Qed.

  Lemma loadCosts_values content c costFile w m : initContext ord content = POk c ->
    loadCosts readPreferences readCost ord c costFile = POk (w, m) ->
    (forall line number rest k, In line (tl (file_lines costFile)) -> entry line number rest -> readCost number = Some k -> (0 <= k)%Z) ->
    Forall (fun e => (0 <= fst e)%Z) m.
  Proof.
    intros E H Hk. unfold loadCosts in H. rewrite <- getlines_spec in Hk.
    assert (X : exists first rest, rest = tl (getlines costFile) /\
      match readPreferences first with
      | None => PErr NoCategory
      | Some w => pbind (costLines readCost ord c [] rest) (fun m => POk (w, m))
      end = POk (w, m)).
    { destruct (getlines costFile) as [|l ls]; eexists _, _; (split; [reflexivity|]); exact H. }
    clear H. destruct X as (first & rest & -> & H). destruct (readPreferences _) as [w0|]; [|discriminate].
    destruct (costLines _ _ _ _ _) as [m0| | |] eqn:EC; try discriminate. cbn [pbind] in H. injection H as -> ->.
    assert (G : forall lines m0, (forall line number rest k, In line lines -> entry line number rest -> readCost number = Some k -> (0 <= k)%Z) ->
      Forall (fun e => (0 <= fst e)%Z) m0 -> costLines readCost ord c m0 lines = POk m -> Forall (fun e => (0 <= fst e)%Z) m).
    { clear. induction lines as [|line lines IH]; intros m0 Hk H0 EC; cbn [costLines] in EC; [now injection EC as <-|].
      destruct (costLine _ _ _ _ _) as [m1| | |] eqn:E1; try discriminate. cbn [pbind] in EC.
      apply (IH m1); auto; [intros l n r k Hl; apply (Hk l n r k); now right|].
      unfold costLine in E1. destruct line as [|a line0] eqn:EL; [now injection E1 as <-|]. rewrite <- EL in *.
      destruct (Ascii.eqb_spec a "#") as [->|Na]; [now injection E1 as <-|].
      pose proof (entry_split line (ex_intro _ a (ex_intro _ line0 (conj EL Na)))) as HS.
      destruct (match splitSpace line with Some p => p | None => (line, line) end) as [number rest].
      destruct (readCost number) as [k0|] eqn:EK; [|discriminate].
      destruct (formula _ _ _ _) as [f| | |] eqn:EF; try discriminate. cbn [pbind] in E1. injection E1 as <-.
      assert (0 <= k0)%Z by (apply (Hk line number rest k0); auto; [now left|now apply HS]).
      apply costAdd_Forall; auto. }
    apply (G (tl (getlines costFile)) []); auto.
  Qed.

  (** ** C71: the verdict *)

  Lemma forall_pre c f : bforall (varCubePre c) f = bforall (varCubePreInput c) (bforall (varCubePreOutput c) f).
  Proof.
    assert (U : forall v, In v (varCubePre c) <-> In v (varCubePreInput c) \/ In v (varCubePreOutput c)).
    { intros v. unfold varCubePre, varCubePreInput, varCubePreOutput. rewrite !in_varsOf. split.
      - intros (H & ty & [<-|[<-|[]]] & Hi); [right|left]; (split; [auto|]); eexists; (split; [now left|auto]).
      - intros [(H & ty & [<-|[]] & Hi)|(H & ty & [<-|[]] & Hi)]; (split; [auto|]); eexists; (split; [|exact Hi]); cbn; auto. }
    apply bf_ext. intros e. apply Bool.eq_iff_eq_true. rewrite (eval_forall (varCubePre c)), (eval_forall (varCubePreInput c)). split.
    - intros H e1 A1. apply eval_forall. intros e2 A2. apply H. intros v Hv. rewrite U in Hv. rewrite A1, A2; tauto.
    - intros H e2 A. specialize (H (fun v : nat => if in_dec Nat.eq_dec v (varCubePreInput c) then e2 v else e v)).
      rewrite eval_forall in H. apply H; intros v Hv; destruct (in_dec Nat.eq_dec v (varCubePreInput c)); try tauto.
      apply A. rewrite U. tauto.
  Qed.

  Lemma checkCost_verdict fuel (robotics : bool) c w costs : exists v,
    v = (if robotics then checkRealizabilityRobotics c else checkRealizability c) /\
    match checkCost fuel robotics c w costs with
    | None => v = Realizable \/ v = NoTermination
    | Some (v', W, r) => v' = v /\ (r <> None <-> v = Realizable) /\ exists d, computeWinningPositions c = Some (W, d) /\
        forall x, r = Some x -> computeCostOptimal fuel robotics c w costs W = Some x
    end.
  Proof.
    unfold checkCost, checkRealizability, checkRealizabilityRobotics, initialCheckRobotics.
    destruct (computeWinningPositions c) as [[W d]|]; [|exists NoTermination; destruct robotics; auto].
    rewrite forall_pre.
    set (v := verdictOf (if robotics then _ else _)). exists v. split; [subst v; destruct robotics; reflexivity|].
    destruct v eqn:E; try (split; [auto|split; [split; [congruence|discriminate]|exists d; split; [auto|discriminate]]]).
    destruct (computeCostOptimal _ _ _ _ _ _) as [x|] eqn:EC; [|auto]. split; auto. split; [split; [auto|discriminate]|].
    exists d. split; auto. intros x' X. now injection X as <-.
  Qed.

  (** The verdict is right, for both semantics, and a strategy is computed (or refused) iff the specification is
      realizable. *)
  Theorem C71_verdict : forall content c costFile w m fuel v W r, initContext ord content = POk c ->
    loadCosts readPreferences readCost ord c costFile = POk (w, m) ->
    (checkCost fuel false c w m = Some (v, W, r) ->
       (v = Realizable /\ r <> None /\ realizable (game_of c)) \/
       (v = Unrealizable /\ r = None /\ forall f, exists x, ~ objective (game_of c) (play (game_of c) f x))) /\
    (checkCost fuel true c w m = Some (v, W, r) ->
       (v = Realizable /\ r <> None /\ realizable_robotics (game_of c)) \/
       (v = Unrealizable /\ r = None /\ exists s, g_initE (game_of c) s = true /\ g_initS (game_of c) s = true /\
          forall f, exists x, ~ safe_and_live (game_of c) (play_from (game_of c) f s x))).
  Proof.
    intros content c costFile w m fuel v W r E EL. pose proof (C41_accepted_wf ord content c E) as Hwf.
    assert (N : forall v, (r <> None <-> v = Realizable) -> v = Unrealizable -> r = None).
    { intros v' H ->. destruct r; auto. destruct H as [H _]. discriminate H. discriminate. }
    split; intros EC.
    - destruct (checkCost_verdict fuel false c w m) as (v' & Ev & H). rewrite EC in H. destruct H as (-> & Hr & _). cbn in Ev.
      destruct (C03_check_terminates c Hwf) as [X|X]; rewrite X in Ev; subst v'.
      + left. split; auto. split; [now apply Hr|]. now apply C01_realizable_sound.
      + right. split; auto. split; [now apply (N Unrealizable)|]. now apply C02_unrealizable_sound.
    - destruct (checkCost_verdict fuel true c w m) as (v' & Ev & H). rewrite EC in H. destruct H as (-> & Hr & _). cbn in Ev.
      destruct (C18_robotics_terminates c Hwf) as [X|X]; rewrite X in Ev; subst v'.
      + left. split; auto. split; [now apply Hr|]. now apply C18_robotics_sound.
      + right. split; auto. split; [now apply (N Unrealizable)|]. now apply C18_robotics_complete.
  Qed.

  (** ** C72: costs *)

  (** The first line has the preferences.  A transition has cost k in the table of costs iff one of the
      other lines says so. *)
  Theorem C72_file : forall content c costFile w m, initContext ord content = POk c ->
    loadCosts readPreferences readCost ord c costFile = POk (w, m) ->
    readPreferences (hd "" (file_lines costFile)) = Some w /\
    forall k s t, (exists f, In (k, f) m /\ trans f s t = true) <-> listedIn c (tl (file_lines costFile)) k s t.
  Proof.
    intros content c costFile w m E H. destruct (loadCosts_inv content c costFile w m E H) as (P & _ & _ & Q). auto.
  Qed.

  Lemma overlap_spec m : match overlap m with
    | Some (k, k') => exists p f q g r, m = p ++ (k, f) :: q ++ (k', g) :: r /\ exists e, eval f e = true /\ eval g e = true
    | None => forall p k f q k' g r, m = p ++ (k, f) :: q ++ (k', g) :: r -> forall e, eval f e = true -> eval g e = true -> False
    end.
  Proof.
    assert (O : forall k f m, match overlapWith k f m with
      | Some (k1, k') => k1 = k /\ exists q g r, m = q ++ (k', g) :: r /\ exists e, eval f e = true /\ eval g e = true
      | None => forall q k' g r, m = q ++ (k', g) :: r -> forall e, eval f e = true -> eval g e = true -> False
      end).
    { clear. intros k f. induction m as [|[k' g] m IH]; cbn [overlapWith]; [intros q k' g r E; destruct q; discriminate|].
      destruct (isFalse (band f g)) eqn:F; cbn [negb].
      - pose proof (proj1 (isFalse_spec _) F) as F'. destruct (overlapWith k f m) as [[k1 k2]|].
        + destruct IH as (-> & q & h & r & -> & H). split; auto. exists ((k', g) :: q), h, r. auto.
        + intros q k2 h r E e H1 H2. destruct q as [|q0 q]; cbn in E.
          * injection E as <- <- <-. specialize (F' e). rewrite eval_and, H1, H2 in F'. discriminate.
          * injection E as _ E. eapply IH; eauto.
      - split; auto. exists [], g, m. split; auto. destruct (proj1 (isFalse_false (band f g)) F) as (e & He).
        rewrite eval_and, andb_true_iff in He. eauto. }
    induction m as [|[k f] m IH]; cbn [overlap]; [intros p k f q k' g r E; destruct p; discriminate|].
    specialize (O k f m). destruct (overlapWith k f m) as [[k1 k2]|].
    - destruct O as (-> & q & g & r & -> & H). exists [], f, q, g, r. auto.
    - destruct (overlap m) as [[k1 k2]|].
      + destruct IH as (p & f' & q & g & r & -> & H). exists ((k, f) :: p), f', q, g, r. auto.
      + intros p k1 f1 q k2 g r E e H1 H2. destruct p as [|p0 p]; cbn in E.
        * injection E as <- <- E. eapply O; eauto.
        * injection E as _ E. eapply IH; eauto.
  Qed.
  Lemma eval_tv f e : eval f e = trans f (fun k => e (2 * k)) (fun k => e (2 * k + 1)).
  Proof.
    unfold trans. apply eval_ext. intros v. destruct (even_cases v) as [[k ->]|[k ->]]; now rewrite ?tv_even, ?tv_odd.
  Qed.

  (** The table of costs is refused iff it gives two different costs to some transition; the message has two
      such costs. *)
  Theorem C72_conflict : forall content c costFile w m fuel robotics v W r, initContext ord content = POk c ->
    loadCosts readPreferences readCost ord c costFile = POk (w, m) ->
    checkCost fuel robotics c w m = Some (v, W, Some r) ->
    let Costs := listedIn c (tl (file_lines costFile)) in
    match r with
    | CostConflict k k' => k <> k' /\ exists s t, Costs k s t /\ Costs k' s t
    | CostStrategy _ _ => forall k k' s t, Costs k s t -> Costs k' s t -> k = k'
    end.
  Proof.
    intros content c costFile w m fuel robotics v W r E EL EC Costs.
    destruct (loadCosts_inv content c costFile w m E EL) as (_ & Hs & Hd & HC).
    destruct (checkCost_verdict fuel robotics c w m) as (v' & _ & H). rewrite EC in H. destruct H as (_ & _ & d & EW & H).
    specialize (H r eq_refl). pose proof (overlap_spec m) as O.
    pose proof (run_good c (C41_accepted_wf ord content c E) (loaded_ordinary ord content c E) robotics w m Hd fuel W d r EW H) as G.
    destruct r as [k k'|c' data].
    - rewrite G in O. destruct O as (p & f & q & g & r & -> & e & H1 & H2). rewrite eval_tv in H1, H2. split.
      + assert (X : (k < k')%Z) by (apply (Hs p k f (q ++ (k', g) :: r) eq_refl (k', g)); rewrite in_app_iff; cbn; auto). lia.
      + eexists _, _. split; apply HC.
        * exists f. split; [|exact H1]. rewrite in_app_iff. cbn. auto.
        * exists g. split; [|exact H2]. rewrite in_app_iff. cbn. rewrite in_app_iff. cbn. auto.
    - destruct G as [G _]. rewrite G in O. intros k k' s t H1 H2. apply HC in H1, H2. destruct H1 as (f & I1 & T1), H2 as (g & I2 & T2).
      destruct (in_split _ _ I1) as (p & q & Em). rewrite Em, in_app_iff in I2. destruct I2 as [I2|[I2|I2]]; [| |].
      + destruct (in_split _ _ I2) as (p1 & p2 & ->). exfalso. rewrite <- app_assoc in Em. cbn in Em.
        exact (O p1 k' g p2 k f q Em (tv s t) T2 T1).
      + now injection I2.
      + destruct (in_split _ _ I2) as (p1 & p2 & ->). exfalso. exact (O p k f p1 k' g p2 Em (tv s t) T1 T2).
  Qed.

  (** Without such a conflict every transition has exactly one cost: the listed one, or 0 if there is none. *)
  Theorem C72_costs : forall content c costFile w m fuel robotics v W c' data, initContext ord content = POk c ->
    loadCosts readPreferences readCost ord c costFile = POk (w, m) ->
    checkCost fuel robotics c w m = Some (v, W, Some (CostStrategy c' data)) ->
    let Costs := listedIn c (tl (file_lines costFile)) in
    forall s t, exists k, (forall k', (exists f, In (k', f) (allCosts m) /\ trans f s t = true) <-> k' = k) /\
      (Costs k s t \/ (k = 0%Z /\ forall k', ~ Costs k' s t)).
  Proof.
    intros content c costFile w m fuel robotics v W c' data E EL EC Costs s t.
    pose proof (C72_conflict content c costFile w m fuel robotics v W _ E EL EC) as U. cbv zeta in U. fold Costs in U.
    destruct (loadCosts_inv content c costFile w m E EL) as (_ & Hs & Hd & HC). fold Costs in HC.
    destruct (costAdd_in 0 (noCostAssigned m) m Hs) as (_ & _ & HA). fold (allCosts m) in HA.
    assert (HN : trans (noCostAssigned m) s t = true <-> forall k', ~ Costs k' s t).
    { assert (G : forall (m : costMap) acc, trans (fold_left (fun acc e => band acc (bnot (snd e))) m acc) s t = true <->
        trans acc s t = true /\ forall k f, In (k, f) m -> trans f s t = false).
      { clear. induction m as [|[k f] m IH]; intros acc; cbn [fold_left]; [firstorder|].
        rewrite IH, trans_and, trans_not, andb_true_iff, negb_true_iff. cbn [snd]. split.
        - intros [[A B] H]. split; auto. intros k' g [X|X]; [injection X as <- <-; auto|eauto].
        - intros [A H]. split; [split; [auto|]|]; [apply (H k f); now left|intros k' g X; apply (H k' g); now right]. }
      unfold noCostAssigned. rewrite G. split.
      - intros [_ H] k' X. apply HC in X. destruct X as (f & I & T). rewrite (H _ _ I) in T. discriminate.
      - intros H. split; [reflexivity|]. intros k f I. destruct (trans f s t) eqn:T; auto. elim (H k). apply HC. eauto. }
    destruct (trans (noCostAssigned m) s t) eqn:T0.
    - exists 0%Z. pose proof (proj1 HN eq_refl) as HN'. split; auto. intros k'. rewrite HA. split; auto.
      + intros [[-> _]|X]; auto. elim (HN' k'). now apply HC.
    - assert (X : exists k, Costs k s t).
      { destruct (existsb (fun e => trans (snd e) s t) m) eqn:EX.
        - apply existsb_exists in EX. destruct EX as ([k f] & I & T). exists k. apply HC. eauto.
        - exfalso. enough (false = true) by discriminate. apply HN. intros k X. apply HC in X. destruct X as (f & I & T).
          enough (existsb (fun e => trans (snd e) s t) m = true) by congruence. apply existsb_exists. exists (k, f). auto. }
      destruct X as (k & X). exists k. split; auto. intros k'. rewrite HA. split.
      + intros [[_ Y]|Y]; [congruence|]. apply HC in Y. eapply U; eauto.
      + intros ->. right. now apply HC.
  Qed.

  (** ** C73: termination *)

  (** With a positive weight for actions, a weight for waiting that is not negative and costs that are not negative
      the search ends. *)
  Theorem C73_terminates : forall content c costFile w m robotics, initContext ord content = POk c ->
    loadCosts readPreferences readCost ord c costFile = POk (w, m) ->
    (0 < actionWeight w)%Z -> (0 <= waitingWeight w)%Z ->
    (forall line number rest k, In line (tl (file_lines costFile)) -> entry line number rest -> readCost number = Some k -> (0 <= k)%Z) ->
    exists n, forall fuel, n <= fuel -> checkCost fuel robotics c w m <> None.
  Proof.
    intros content c costFile w m robotics E EL Ha Hw Hk.
    destruct (loadCosts_inv content c costFile w m E EL) as (_ & Hs & Hd & HC).
    pose proof (C41_accepted_wf ord content c E) as Hwf.
    destruct (compute_spec c Hwf) as (W & d & EW & _).
    assert (Hpos : Forall (fun e => (0 <= fst e)%Z) m) by exact (loadCosts_values content c costFile w m E EL Hk).
    destruct (run_ends c Hwf robotics w m Hd Ha Hw Hpos W d EW) as (n & H).
    exists n. intros fuel Hf. destruct (checkCost_verdict fuel robotics c w m) as (v & Ev & H').
    unfold checkCost. rewrite EW. destruct (H fuel Hf) as (r & ->). destruct (verdictOf _); discriminate.
  Qed.

  (** ** C74: safety *)

  Lemma explicit_inv content c costFile w m fuel robotics recovery out : initContext ord content = POk c ->
    loadCosts readPreferences readCost ord c costFile = POk (w, m) ->
    explicitCost fuel robotics recovery c w m = Some out ->
    exists W c' data keys, exactW c W /\ wf c' /\ safetyEnv c' = safetyEnv c /\ safetySys c' = safetySys c /\
      result c' false recovery (positional c' data) (extractInit recovery c' W) keys out /\
      (forall j s t, j < length (livenessGuarantees c') -> trans (stratT c' recovery (positional c' data) j) s t = true ->
        (recovery = false -> trans (safetyEnv c) s t = true) /\
        (trans (safetyEnv c) s t = true -> trans (safetySys c) s t = true /\ pos W t = true)) /\
      (forall s, pos (extractInit recovery c' W) s = true ->
        pos W s = true /\ (recovery = false -> pos (initEnv c) s = true) /\ pos (initSys c) s = true).
  Proof.
    intros E EL EX.
    destruct (loadCosts_inv content c costFile w m E EL) as (_ & Hs & Hd & HC).
    pose proof (C41_accepted_wf ord content c E) as Hwf. unfold explicitCost in EX.
    destruct (checkCost_verdict fuel robotics c w m) as (v & _ & H). destruct (checkCost fuel robotics c w m) as [[[v' W] r]|]; [|discriminate].
    destruct v'; try discriminate. destruct r as [[k k'|c' data]|]; try discriminate. destruct H as (_ & _ & d & EW & H).
    specialize (H _ eq_refl).
    destruct (run_good c Hwf (loaded_ordinary ord content c E) robotics w m Hd fuel W d _ EW H) as (_ & Gd).
    destruct (compute_spec c Hwf) as (W0 & d0 & E0 & HS). rewrite EW in E0. injection E0 as <- <-.
    pose proof (gd_data _ _ _ _ Gd) as HD.
    destruct (extract_spec c' recovery W data (gd_wf _ _ _ _ Gd) (gd_w _ _ _ _ Gd)) as (keys & out' & EO & HR).
    { eapply Forall_impl; [|exact HD]. intros e [X _] _. exact X. }
    rewrite EX in EO. injection EO as <-. exists W, c', data, keys.
    split; [exact (solved_exact c W d Hwf HS)|]. split; [exact (gd_wf _ _ _ _ Gd)|]. split; [exact (gd_env _ _ _ _ Gd)|].
    split; [exact (gd_sys _ _ _ _ Gd)|]. split; [exact HR|]. split.
    - intros j s t Hj T.
      assert (T' : trans (positional c' data j) s t = true /\ (recovery = false -> trans (safetyEnv c) s t = true)).
      { unfold stratT in T. destruct recovery; [split; auto; discriminate|]. rewrite trans_and, andb_true_iff in T.
        rewrite <- (gd_env _ _ _ _ Gd). tauto. }
      clear T. destruct T' as [T TE]. split; auto. rewrite positional_spec in T by exact (gd_wf _ _ _ _ Gd).
      destruct T as (p & F & q & EF & TF & _).
      assert (I : In F (dataOf j data)) by (rewrite EF, in_app_iff; cbn; auto).
      unfold dataOf in I. apply in_map_iff in I. destruct I as ([j' F'] & X & I). cbn in X. subst F'. apply filter_In in I.
      rewrite Forall_forall in HD. exact (proj2 (HD _ (proj1 I)) s t TF).
    - intros s X. unfold extractInit in X. destruct recovery; rewrite !pos_and, !andb_true_iff in X.
      + destruct X as [X1 X2]. split; auto. split; [discriminate|]. apply (gd_initS _ _ _ _ Gd). exact X2.
      + rewrite (gd_initE _ _ _ _ Gd) in X. destruct X as [[X1 X2] X3]. split; auto. split; auto. apply (gd_initS _ _ _ _ Gd). exact X2.
  Qed.

  (** All transitions of the printed automaton satisfy the safety assumptions and guarantees, all of its states are
      winning positions and all of its states can be reached from initial ones. *)
  Theorem C74_safe : forall content c costFile w m fuel robotics out, initContext ord content = POk c ->
    loadCosts readPreferences readCost ord c costFile = POk (w, m) ->
    explicitCost fuel robotics false c w m = Some out ->
    let A := map fst out in let G := game_of c in
    (forall v u, edge A v u -> g_safeE G (val v) (val u) = true /\ g_safeS G (val v) (val u) = true) /\
    (forall v, In v A -> winning G (val v)) /\
    (forall v, In v A -> AutSpec.reach A (fun v => n_rank v = 0 /\ g_initE G (val v) = true /\ g_initS G (val v) = true) v).
  Proof.
    intros content c costFile w m fuel robotics out E EL EX A G.
    destruct (explicit_inv _ _ _ _ _ _ _ _ _ E EL EX) as (W & c' & data & keys & HX & Hwf' & EE & ES & HR & HT & HW).
    split; [|split].
    - intros v0 u Ed. destruct (edge_spec c' _ _ _ _ _ _ HR v0 u Ed) as [T _]. destruct Ed as (Hv & _).
      destruct (HT (n_rank v0) (val v0) (val u)) as (T1 & T2); auto; [eapply A_shape; eauto|]. specialize (T1 eq_refl). split; [exact T1|now apply T2].
    - intros u Hu. apply (exact_winning c W HX).
      apply (node_W c' _ _ _ _ _ _ HR W); auto.
      + intros s X. now apply HW.
      + intros j s t Hj T. destruct (HT j s t Hj T) as (T1 & T2). rewrite ES. apply T2. now apply T1.
    - intros u Hu. pose proof (all_reached c' _ _ _ _ _ _ HR u Hu) as R.
      clear -R HW. induction R as [u Hu [P1 P2]|u u' R IH Ed]; [|eapply AutSpec.reach_step; eauto].
      apply AutSpec.reach_init; auto. split; auto. apply HW in P2. destruct P2 as (_ & P2 & P3). split; [now apply P2|exact P3].
  Qed.

  (** With --simpleRecovery: transitions that satisfy the safety assumptions satisfy the safety guarantees, and they
      lead to winning positions (see C74_recovery_refuted for the others). *)
  Theorem C74_recovery : forall content c costFile w m fuel robotics out, initContext ord content = POk c ->
    loadCosts readPreferences readCost ord c costFile = POk (w, m) ->
    explicitCost fuel robotics true c w m = Some out ->
    let A := map fst out in let G := game_of c in
    (forall v u, edge A v u -> g_safeE G (val v) (val u) = true -> g_safeS G (val v) (val u) = true /\ winning G (val u)) /\
    (forall v, In v A -> AutSpec.reach A (fun v => n_rank v = 0 /\ winning G (val v) /\ g_initS G (val v) = true) v).
  Proof.
    intros content c costFile w m fuel robotics out E EL EX A G.
    destruct (explicit_inv _ _ _ _ _ _ _ _ _ E EL EX) as (W & c' & data & keys & HX & Hwf' & EE & ES & HR & HT & HW).
    split.
    - intros v0 u Ed HE. destruct (edge_spec c' _ _ _ _ _ _ HR v0 u Ed) as [T _]. destruct Ed as (Hv & _).
      destruct (HT (n_rank v0) (val v0) (val u)) as (_ & T2); auto; [eapply A_shape; eauto|]. destruct (T2 HE) as [T3 T4]. split; [exact T3|].
      now apply (exact_winning c W HX).
    - intros u Hu. pose proof (all_reached c' _ _ _ _ _ _ HR u Hu) as R.
      clear -R HW HX. induction R as [u Hu [P1 P2]|u u' R IH Ed]; [|eapply AutSpec.reach_step; eauto].
      apply AutSpec.reach_init; auto. split; auto. apply HW in P2. destruct P2 as (P2 & _ & P3). split; [|exact P3]. now apply (exact_winning c W HX).
  Qed.
End FILES.

(** ** Examples and refutations *)

Definition exPrefs (s : string) : option weights := if String.eqb s "1 1 <" then Some (mkWeights 1 1 true) else None.
Definition exCost (s : string) : option Z :=
  if String.eqb s "2" then Some 2%Z else if String.eqb s "3" then Some 3%Z else if String.eqb s "-1" then Some (-1)%Z else None.
Definition linesOf (l : list string) : string := String.concat (String (ascii_of_nat 10) "") l.

(** A specification, a cost file and the automaton for them. *)
Definition exRun (recovery : bool) (content costFile : string) : option (ctx * weights * costMap * list node) :=
  match initContext exOrd content with
  | POk c =>
      match loadCosts exPrefs exCost exOrd c costFile with
      | POk (w, m) =>
          match explicitCost 6 false recovery c w m with
          | Some out => Some (c, w, m, map fst out)
          | None => None
          end
      | _ => None
      end
  | _ => None
  end.
Definition exTest (recovery : bool) (content costFile : string) (P : ctx -> list node -> bool) : bool :=
  match exRun recovery content costFile with Some (c, w, m, A) => P c A | None => false end.

Lemma exTest_spec recovery content costFile P : exTest recovery content costFile P = true ->
  exists c w m out, initContext exOrd content = POk c /\ loadCosts exPrefs exCost exOrd c costFile = POk (w, m) /\
    explicitCost 6 false recovery c w m = Some out /\ P c (map fst out) = true.
Proof.
  unfold exTest, exRun. destruct (initContext exOrd content) as [c| | |]; try discriminate.
  destruct (loadCosts exPrefs exCost exOrd c costFile) as [[w m]| | |] eqn:EL; try discriminate.
  destruct (explicitCost 6 false recovery c w m) as [out|] eqn:EX; try discriminate. intros H. exists c, w, m, out. auto.
Qed.

Definition edgeb (A : list node) (v u : node) : bool := existsb (Nat.eqb (n_num u)) (n_succ v).
Lemma edgeb_spec A v u : In v A -> In u A -> (edgeb A v u = true <-> edge A v u).
Proof.
  intros Hv Hu. unfold edgeb, edge. rewrite existsb_exists. split.
  - intros (n & Hn & E). apply Nat.eqb_eq in E. subst n. auto.
  - intros (_ & _ & H). exists (n_num u). split; auto. apply Nat.eqb_refl.
Qed.

(** The system waits for x and has to pay for changing y. *)
Definition exSpec : string := linesOf ["[INPUT]"; "x"; "[OUTPUT]"; "y"; "[SYS_TRANS]"; "| ! y' x'"; "[ENV_LIVENESS]"; "x'"; "[SYS_LIVENESS]"; "y'"]%string.
Definition exCosts : string := linesOf ["1 1 <"; "# changes of y"; "2 ^ y y'"]%string.
Definition exConflict : string := linesOf ["1 1 <"; "2 y"; "3 x"]%string.

Example C71_example : match initContext exOrd exSpec with
  | POk c => match loadCosts exPrefs exCost exOrd c exCosts with
             | POk (w, m) => match checkCost 6 false c w m, checkCost 6 true c w m with
                             | Some (Realizable, _, Some (CostStrategy _ _)), Some (Realizable, _, Some (CostStrategy _ _)) => true
                             | _, _ => false
                             end
             | _ => false
             end
  | _ => false
  end = true.
Proof. vm_compute. reflexivity. Qed.

Example C72_example : match initContext exOrd exSpec with
  | POk c => match loadCosts exPrefs exCost exOrd c exConflict with
             | POk (w, m) => match checkCost 6 false c w m with
                             | Some (Realizable, _, Some (CostConflict 2 3)) => true
                             | _ => false
                             end
             | _ => false
             end
  | _ => false
  end = true.
Proof. vm_compute. reflexivity. Qed.
Example C72_entry_example : entry "2 ^ y y'" "2" "^ y y'" /\ entry "1" "1" "1".
Proof.
  split; (split; [eexists _, _; split; [reflexivity|discriminate]|]).
  - left. split; [|reflexivity]. cbn. split; auto. discriminate.
  - right. cbn. repeat split; discriminate.
Qed.

Example C73_example : (0 < actionWeight (mkWeights 1 1 true))%Z /\ (0 <= waitingWeight (mkWeights 1 1 true))%Z /\
  forall line number rest k, In line (tl (file_lines exCosts)) -> entry line number rest -> exCost number = Some k -> (0 <= k)%Z.
Proof.
  split; [reflexivity|]. split; [discriminate|]. intros line number rest k Hl He Hk.
  assert (HL : exists a r, line = String a r /\ a <> "#"%char) by apply He. apply entry_split in He; auto.
  rewrite <- getlines_spec in Hl. vm_compute in Hl. destruct Hl as [<-|[<-|[]]].
  - destruct HL as (a & r & E & N). now injection E as <- _.
  - vm_compute in He. injection He as -> ->. vm_compute in Hk. injection Hk as <-. discriminate.
Qed.

Example C74_example : exTest false exSpec exCosts (fun c A => Nat.ltb 4 (length A)) && exTest true exSpec exCosts (fun c A => Nat.ltb 4 (length A)) = true.
Proof. vm_compute. reflexivity. Qed.

(** With --simpleRecovery there can be transitions that violate the safety guarantees although there are others for
    the same input that do not. *)
Definition exViolate : string := linesOf ["[INPUT]"; "x"; "[OUTPUT]"; "y"; "[ENV_TRANS]"; "! x'"; "[SYS_TRANS]"; "y'"; "[ENV_LIVENESS]"; "x"; "[SYS_LIVENESS]"; "0"]%string.
Theorem C74_recovery_refuted : exists content c costFile w m out v u t, initContext exOrd content = POk c /\
  loadCosts exPrefs exCost exOrd c costFile = POk (w, m) /\ explicitCost 6 false true c w m = Some out /\
  edge (map fst out) v u /\ g_safeS (game_of c) (val v) (val u) = false /\
  same_in (game_of c) (nvars c) t (val u) /\ g_safeS (game_of c) (val v) t = true.
Proof.
  pose (P := fun (c : ctx) (A : list node) => existsb (fun v => existsb (fun u => edgeb A v u && negb (trans (safetySys c) (val v) (val u)) &&
    Nat.eqb (nvars c) 2 && isOut c 1 && trans (safetySys c) (val v) (fun k => match k with 0 => val u 0 | _ => true end)) A) A).
  destruct (exTest_spec true exViolate "1 1 <" P) as (c & w & m & out & E1 & E2 & E3 & H); [vm_compute; reflexivity|]. subst P. cbv beta in H.
  apply existsb_exists in H. destruct H as (v & Hv & H). apply existsb_exists in H. destruct H as (u & Hu & H).
  rewrite !andb_true_iff in H. destruct H as ((((H1 & H2) & H3) & H4) & H5).
  exists exViolate, c, "1 1 <"%string, w, m, out, v, u, (fun k => match k with 0 => val u 0 | _ => true end).
  split; auto. split; auto. split; auto. split; [now apply edgeb_spec|]. split; [now apply negb_true_iff in H2|]. split; auto.
  intros [|k] Hk Ho; auto. apply Nat.eqb_eq in H3. assert (k = 0) by lia. subst k. cbn in Ho. congruence.
Qed.

(** ** C75: dead ends *)

(** It is not the case that the printed automaton has a transition for every permitted next input, ... *)
Definition exDead : string := linesOf ["[INPUT]"; "x"; "[OUTPUT]"; "y"; "[ENV_LIVENESS]"; "x'"; "[SYS_LIVENESS]"; "x'"]%string.
Theorem C75_refuted : exists content c costFile w m out v x, initContext exOrd content = POk c /\
  loadCosts exPrefs exCost exOrd c costFile = POk (w, m) /\ explicitCost 6 false false c w m = Some out /\
  In v (map fst out) /\ g_safeE (game_of c) (val v) x = true /\
  forall u, edge (map fst out) v u -> ~ same_in (game_of c) (nvars c) (val u) x.
Proof.
  pose (P := fun (c : ctx) (A : list node) => existsb (fun v => existsb (fun x => trans (safetyEnv c) (val v) (fun _ => x) &&
    Nat.ltb 0 (nvars c) && negb (isOut c 0) && forallb (fun u => negb (edgeb A v u) || negb (Bool.eqb (val u 0) x)) A) [false; true]) A).
  destruct (exTest_spec false exDead "1 1 <" P) as (c & w & m & out & E1 & E2 & E3 & H); [vm_compute; reflexivity|]. subst P. cbv beta in H.
  apply existsb_exists in H. destruct H as (v & Hv & H). apply existsb_exists in H. destruct H as (x & _ & H).
  rewrite !andb_true_iff in H. destruct H as (((H1 & H2) & H3) & H4). rewrite forallb_forall in H4.
  exists exDead, c, "1 1 <"%string, w, m, out, v, (fun _ => x). split; auto. split; auto. split; auto. split; auto. split; [exact H1|].
  intros u Hu Hs. specialize (H4 u (proj1 (proj2 Hu))). pose proof (proj2 (edgeb_spec _ v u Hv (proj1 (proj2 Hu))) Hu) as X.
  rewrite X in H4. cbn in H4. apply Nat.ltb_lt in H2. apply negb_true_iff in H3. rewrite (Hs 0 H2 H3) in H4. rewrite eqb_reflx in H4. discriminate.
Qed.

(** ... nor that it has an initial state for every permitted initial input: there may be none with these inputs at all. *)
Definition exNoInit : string := linesOf ["[INPUT]"; "x"; "z"; "[OUTPUT]"; "y"; "[ENV_TRANS]"; "! z'"; "[ENV_LIVENESS]"; "& | x z ! x'"; "[SYS_LIVENESS]"; "& & ! x ! z x'"]%string.
Theorem C75_initial_refuted : exists content c costFile w m out x, initContext exOrd content = POk c /\
  loadCosts exPrefs exCost exOrd c costFile = POk (w, m) /\ explicitCost 6 false false c w m = Some out /\
  g_initE (game_of c) x = true /\ forall v, In v (map fst out) -> ~ same_in (game_of c) (nvars c) (val v) x.
Proof.
  pose (P := fun (c : ctx) (A : list node) => pos (initEnv c) (fun _ => true) &&
    Nat.ltb 1 (nvars c) && negb (isOut c 1) && forallb (fun u => negb (Bool.eqb (val u 1) true)) A).
  destruct (exTest_spec false exNoInit "1 1 <" P) as (c & w & m & out & E1 & E2 & E3 & H); [vm_compute; reflexivity|]. subst P. cbv beta in H.
  rewrite !andb_true_iff in H. destruct H as (((H1 & H2) & H3) & H4). rewrite forallb_forall in H4.
  exists exNoInit, c, "1 1 <"%string, w, m, out, (fun _ => true). split; auto. split; auto. split; auto. split; [exact H1|].
  intros u Hu Hs. specialize (H4 u Hu). apply Nat.ltb_lt in H2. apply negb_true_iff in H3. rewrite (Hs 1 H2 H3) in H4. discriminate.
Qed.

(** ** C76: liveness *)

(** It is not the case that the liveness guarantees are satisfied along each path on which the assumptions are. *)
Definition exLive : string := linesOf ["[INPUT]"; "x"; "[OUTPUT]"; "y"; "[ENV_LIVENESS]"; "! x"; "[SYS_LIVENESS]"; "& y' ! x'"]%string.
Theorem C76_refuted : exists content c costFile w m out p, initContext exOrd content = POk c /\
  loadCosts exPrefs exCost exOrd c costFile = POk (w, m) /\ explicitCost 6 false false c w m = Some out /\
  path (map fst out) p /\ (forall q, In q (g_liveA (game_of c)) -> inf_often q (positions p)) /\
  ~ (forall q, In q (g_liveG (game_of c)) -> inf_often q (positions p)).
Proof.
  pose (P := fun (c : ctx) (A : list node) => existsb (fun v => existsb (fun u => edgeb A v u && edgeb A u v &&
    forallb (fun q => trans q (val v) (val u)) (livenessAssumptions c) &&
    existsb (fun q => negb (trans q (val v) (val u)) && negb (trans q (val u) (val v))) (livenessGuarantees c)) A) A).
  destruct (exTest_spec false exLive "1 1 <" P) as (c & w & m & out & E1 & E2 & E3 & H); [vm_compute; reflexivity|]. subst P. cbv beta in H.
  apply existsb_exists in H. destruct H as (v & Hv & H). apply existsb_exists in H. destruct H as (u & Hu & H).
  rewrite !andb_true_iff in H. destruct H as (((H1 & H2) & H3) & H4). rewrite forallb_forall in H3. apply existsb_exists in H4. destruct H4 as (q & Hq & H4).
  rewrite andb_true_iff, !negb_true_iff in H4. destruct H4 as [H4 H5].
  exists exLive, c, "1 1 <"%string, w, m, out, (fun n => if Nat.even n then v else u). split; auto. split; auto. split; auto. split; [|split].
  - intros n. rewrite Nat.even_succ, <- Nat.negb_even. destruct (Nat.even n); cbn; now apply edgeb_spec.
  - intros q' Hq'. cbn in Hq'. apply in_map_iff in Hq'. destruct Hq' as (f & <- & Hf). intros n. exists (2 * n). split; [lia|]. unfold positions.
    rewrite Nat.even_succ, <- Nat.negb_even, even_double. cbn. now apply H3.
  - intros X. destruct (X (trans q)) with (n := 0) as (k & _ & Hk); [cbn; apply in_map_iff; exists q; auto|].
    unfold positions in Hk. rewrite Nat.even_succ, <- Nat.negb_even in Hk. destruct (Nat.even k); cbn in Hk; congruence.
Qed.

Print Assumptions C71_verdict.
Print Assumptions C72_file.
Print Assumptions C72_conflict.
Print Assumptions C72_costs.
Print Assumptions C73_terminates.
Print Assumptions C74_safe.
Print Assumptions C74_recovery.
Print Assumptions C74_recovery_refuted.
Print Assumptions C75_refuted.
Print Assumptions C75_initial_refuted.
Print Assumptions C76_refuted.
