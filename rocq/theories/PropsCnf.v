(** * C27: the CNF form of the specification *)

From Coq Require Import String ZArith Arith List Bool Lia.
From Verif Require Import BDD Loop Spec VarTypes Synth Sem FixBase Explicit CnfSpec Cnf CnfProofs PropsSynth FileSpec FileProofs
  Parser PropsParser.
Import ListNotations.
Local Open Scope list_scope.

(** The declared variables: name, and whether the variable is an output. *)
Definition declares (c : ctx) (ds : list (string * bool)) : Prop :=
  varNames c = flat_map (fun d => [fst d; (fst d ++ "'")%string]) ds /\
  varTypes c = flat_map (fun d => if snd d : bool then [PreOutput; PostOutput] else [PreInput; PostInput]) ds.

(** Every specification that is read from a file is of this form. *)
Theorem C27_loaded : forall ord content c, initContext ord content = POk c -> exists ds, declares c ds.
Proof.
  intros ord content c H. destruct (initContext_inv _ _ _ H) as (L & bs & _ & _ & _ & ->).
  exists (flat_map (fun p => match fst p with SInput => [(snd p, false)] | SOutput => [(snd p, true)] | _ => [] end) L).
  unfold declares. cbn [varNames varTypes finalContext]. rewrite typesF_kinds. unfold declared, kindsF, outputs.
  clear. induction L as [|[s w] L [IH1 IH2]]; [split; reflexivity|].
  cbn [flat_map fst snd]. rewrite !flat_map_app, IH1. unfold typesOf in *.
  rewrite map_app, flat_map_app, IH2. destruct s; split; reflexivity.
Qed.
Print Assumptions C27_loaded.

(** Lines of a kind. *)
Definition varsIn (out : list cnfLine) : list (bool * string * nat * nat) :=
  flat_map (fun l => match l with VarLine o name a b => [(o, name, a, b)] | _ => [] end) out.
Definition clausesIn (k : clauseKind) (out : list cnfLine) : list (list Z) :=
  flat_map (fun l => match l, k with
                     | ClauseLine SafetyGuarantee cl, SafetyGuarantee => [cl]
                     | ClauseLine SafetyAssumption cl, SafetyAssumption => [cl]
                     | ClauseLine Init cl, Init => [cl]
                     | _, _ => []
                     end) out.
Definition livesIn (k : liveKind) (out : list cnfLine) : list (list (list Z)) :=
  flat_map (fun l => match l, k with
                     | LiveLine LivenessGuarantee cu, LivenessGuarantee => [cu]
                     | LiveLine LivenessAssumption cu, LivenessAssumption => [cu]
                     | _, _ => []
                     end) out.

Section PROOF.
  Variables (c : ctx) (ds : list (string * bool)).
  Hypothesis Hwf : wf c.
  Hypothesis Hds : declares c ds.
  Local Notation n := (length (varTypes c)).

  Lemma len_names : length (varNames c) = 2 * length ds.
  Proof. destruct Hds as [-> _]. clear. induction ds; cbn in *; lia. Qed.
  Lemma len_types : n = 2 * length ds.
  Proof. destruct Hds as [_ ->]. clear. induction ds as [|[w []] l IH]; cbn in *; lia. Qed.
  Lemma nth_names k w o : nth_error ds k = Some (w, o) ->
    nameOf c (2 * k) = w /\ nameOf c (2 * k + 1) = (w ++ "'")%string.
  Proof.
    unfold nameOf. destruct Hds as [-> _]. clear. revert k.
    induction ds as [|d l IH]; intros [|k]; try discriminate.
    - intros E. injection E as ->. split; reflexivity.
    - intros E. cbn [nth_error] in E. apply IH in E. replace (2 * S k) with (S (S (2 * k))) by lia.
      exact E.
  Qed.
  Lemma nth_types k w o : nth_error ds k = Some (w, o) ->
    typeOf c (2 * k) = (if o : bool then PreOutput else PreInput) /\
    typeOf c (2 * k + 1) = (if o : bool then PostOutput else PostInput).
  Proof.
    unfold typeOf. destruct Hds as [_ ->]. clear. revert k.
    induction ds as [|[w' o'] l IH]; intros [|k]; try discriminate.
    - intros E. injection E as -> ->. destruct o; split; reflexivity.
    - intros E. cbn [nth_error] in E. apply IH in E. replace (2 * S k) with (S (S (2 * k))) by lia.
      destruct o'; exact E.
  Qed.

  Definition varLine (k : nat) (d : string * bool) : cnfLine := VarLine (snd d) (fst d) (2 * k + 1) (2 * k + 2).
  Fixpoint varLinesFrom (k : nat) (l : list (string * bool)) : list cnfLine :=
    match l with
    | [] => []
    | d :: l => varLine k d :: varLinesFrom (S k) l
    end.
  Lemma varLines_spec l : forall k m pre, ds = pre ++ l -> length pre = k -> length l < m ->
    varLines c m (2 * k) = COk (varLinesFrom k l).
  Proof.
    induction l as [|[w o] l IH]; intros k m pre E Hk Hm; (destruct m as [|m]; [cbn in Hm; lia|]); cbn [varLines varLinesFrom].
    - replace (Nat.ltb (2 * k) (length (varNames c))) with false; [reflexivity|].
      symmetry. apply Nat.ltb_ge. rewrite len_names, E, app_nil_r. lia.
    - assert (length ds = k + S (length l)) as Hl by (rewrite E, app_length; cbn; lia).
      replace (Nat.ltb (2 * k) (length (varNames c))) with true by (symmetry; apply Nat.ltb_lt; rewrite len_names; lia).
      replace (Nat.eqb (2 * k) (length (varNames c) - 1)) with false
        by (symmetry; apply Nat.eqb_neq; rewrite len_names; lia).
      cbn [negb].
      assert (nth_error ds k = Some (w, o)) as Hn.
      { rewrite E, nth_error_app2 by lia. replace (k - length pre) with 0 by lia. reflexivity. }
      destruct (nth_names k w o Hn) as [N1 N2]. destruct (nth_types k w o Hn) as [T1 T2].
      rewrite T1, T2, N1, N2, String.eqb_refl.
      replace (2 * k + 2) with (2 * S k) by lia.
      rewrite (IH (S k) m (pre ++ [(w, o)])); [|rewrite E, <- app_assoc; reflexivity|rewrite app_length; cbn; lia|cbn in Hm; lia].
      unfold varLine. cbn [fst snd]. replace (2 * S k) with (2 * k + 2) by lia.
      destruct o; reflexivity.
  Qed.

  Lemma any_dep f : dep (isAnyV c) f -> dep (fun v => v < n) f.
  Proof. intros H. exact H. Qed.
  Lemma safetyEnv_any : dep (fun v => v < n) (safetyEnv c).
  Proof. apply dep_weaken with (isPrePostInV c); [intros v [H _]; exact H|apply (wf_safetyEnv c Hwf)]. Qed.
  Lemma init_any : dep (fun v => v < n) (band (initEnv c) (initSys c)).
  Proof.
    apply dep_and.
    - apply dep_weaken with (isPreInV c); [intros v [[H _] _]; exact H|apply (wf_initEnv c Hwf)].
    - apply dep_weaken with (isPreV c); [intros v [H _]; exact H|apply (wf_initSys c Hwf)].
  Qed.

  Lemma liveLines_spec k its : Forall (dep (isAnyV c)) its ->
    exists css, liveLines c k its = COk (map (fun cs => LiveLine k (map (shift c) cs)) css) /\
      Forall2 (fun it cs => (forall e, eval it e = dnfSat (valOf e) cs) /\
        forall cl l, In cl cs -> In l cl -> (1 <= Z.abs l <= Z.of_nat n)%Z) its css.
  Proof.
    induction 1 as [|it its H HF (css & E & F)].
    - exists []. split; constructor.
    - destruct (cubes_spec c it H) as (cs & E1 & E2 & E3). exists (cs :: css). cbn [liveLines].
      rewrite E1, E. split; [reflexivity|]. constructor; auto.
  Qed.

  Lemma post_odd v : v < n -> isPostType (typeOf c v) = true -> exists k, v = 2 * k + 1.
  Proof.
    intros Hv Hp. destruct (Nat.Even_or_Odd v) as [[k ->]|[k ->]]; [|eauto]. exfalso.
    rewrite len_types in Hv. destruct (nth_error ds k) as [[w o]|] eqn:E.
    - destruct (nth_types k w o E) as [T _]. rewrite T in Hp. destruct o; discriminate.
    - apply nth_error_None in E. lia.
  Qed.
  Lemma shift_lit s0 s t l : (1 <= Z.abs l <= Z.of_nat n)%Z -> postLit c l = true ->
    litSat (numberVal s t) (l - normsign l) = litSat (numberVal s0 s) l.
  Proof.
    intros Hr Hp. unfold postLit in Hp. apply post_odd in Hp; [|lia]. destruct Hp as (k & Hk).
    assert (forall v, Nat.even (2 * v + 1) = false /\ Nat.div2 (2 * v + 1) = v /\ Nat.even (2 * v) = true /\
              Nat.div2 (2 * v) = v) as P.
    { intros v. rewrite Nat.add_1_r, Nat.even_succ, <- Nat.negb_even, Nat.even_mul, Nat.div2_succ_double, Nat.div2_double.
      repeat split. }
    destruct (P k) as (P1 & P2 & P3 & P4).
    unfold litSat, normsign, numberVal. destruct (Z.ltb_spec l 0) as [Hl|Hl].
    - replace (0 <? l - -1)%Z with false by (symmetry; apply Z.ltb_ge; lia).
      replace (0 <? l)%Z with false by (symmetry; apply Z.ltb_ge; lia).
      replace (Z.to_nat (- (l - -1) - 1)) with (2 * k) by lia.
      replace (Z.to_nat (- l - 1)) with (2 * k + 1) by lia. now rewrite P1, P2, P3, P4.
    - replace (0 <? l - 1)%Z with true by (symmetry; apply Z.ltb_lt; lia).
      replace (0 <? l)%Z with true by (symmetry; apply Z.ltb_lt; lia).
      replace (Z.to_nat (l - 1 - 1)) with (2 * k) by lia.
      replace (Z.to_nat (l - 1)) with (2 * k + 1) by lia. now rewrite P1, P2, P3, P4.
  Qed.
  Lemma shift_cube s0 s t cu : (forall l, In l cu -> (1 <= Z.abs l <= Z.of_nat n)%Z) ->
    forallb (postLit c) cu = true ->
    cubeSat (numberVal s t) (shift c cu) = cubeSat (numberVal s0 s) cu.
  Proof.
    intros Hr Hp. unfold shift. rewrite Hp. unfold cubeSat.
    rewrite forallb_forall in Hp. revert Hr Hp. induction cu as [|l cu IH]; intros Hr Hp; [reflexivity|].
    cbn [map forallb]. rewrite (shift_lit s0); [|apply Hr; now left|apply Hp; now left].
    f_equal. apply IH; intros x Hx; [apply Hr|apply Hp]; now right.
  Qed.
  Lemma noshift_cube v cu : forallb (postLit c) cu = false -> cubeSat v (shift c cu) = cubeSat v cu.
  Proof. intros H. unfold shift. rewrite H. now rewrite map_id. Qed.

  Lemma shift_inf cs pi : (forall cl l, In cl cs -> In l cl -> (1 <= Z.abs l <= Z.of_nat n)%Z) ->
    inf_often (fun s t => dnfSat (numberVal s t) cs) pi <->
    inf_often (fun s t => dnfSat (numberVal s t) (map (shift c) cs)) pi.
  Proof.
    intros Hr. unfold inf_often, dnfSat. split; intros H i.
    - destruct (H i) as (m & Hm & E). apply existsb_exists in E. destruct E as (cu & Hcu & E).
      destruct (forallb (postLit c) cu) eqn:Ep.
      + exists (S m). split; [lia|]. apply existsb_exists. exists (shift c cu). split; [now apply in_map|].
        rewrite (shift_cube (pi m)); eauto.
      + exists m. split; [lia|]. apply existsb_exists. exists (shift c cu). split; [now apply in_map|].
        now rewrite noshift_cube.
    - destruct (H (S i)) as (m & Hm & E). destruct m as [|m]; [lia|].
      apply existsb_exists in E. destruct E as (cu' & Hcu & E).
      apply in_map_iff in Hcu. destruct Hcu as (cu & <- & Hcu).
      destruct (forallb (postLit c) cu) eqn:Ep.
      + exists m. split; [lia|]. apply existsb_exists. exists cu. split; [exact Hcu|].
        rewrite (shift_cube (pi m)) in E; eauto.
      + exists (S m). split; [lia|]. apply existsb_exists. exists cu. split; [exact Hcu|].
        now rewrite noshift_cube in E.
  Qed.

  Lemma computeCNF_spec :
    exists c0 c1 c2 l0 l1,
      computeCNF c = COk (varLinesFrom 0 ds ++ map (ClauseLine SafetyGuarantee) c0 ++ map (ClauseLine SafetyAssumption) c1 ++
        map (ClauseLine Init) c2 ++ map (fun cs => LiveLine LivenessGuarantee (map (shift c) cs)) l0 ++
        map (fun cs => LiveLine LivenessAssumption (map (shift c) cs)) l1) /\
      ((forall e, eval (safetySys c) e = cnfSat (valOf e) c0) /\
       (forall cl l, In cl c0 -> In l cl -> (1 <= Z.abs l <= Z.of_nat n)%Z)) /\
      ((forall e, eval (safetyEnv c) e = cnfSat (valOf e) c1) /\
       (forall cl l, In cl c1 -> In l cl -> (1 <= Z.abs l <= Z.of_nat n)%Z)) /\
      ((forall e, eval (band (initEnv c) (initSys c)) e = cnfSat (valOf e) c2) /\
       (forall cl l, In cl c2 -> In l cl -> (1 <= Z.abs l <= Z.of_nat n)%Z)) /\
      Forall2 (fun it cs => (forall e, eval it e = dnfSat (valOf e) cs) /\
        forall cl l, In cl cs -> In l cl -> (1 <= Z.abs l <= Z.of_nat n)%Z) (livenessGuarantees c) l0 /\
      Forall2 (fun it cs => (forall e, eval it e = dnfSat (valOf e) cs) /\
        forall cl l, In cl cs -> In l cl -> (1 <= Z.abs l <= Z.of_nat n)%Z) (livenessAssumptions c) l1.
  Proof.
    unfold computeCNF.
    destruct (clauses_spec c (safetySys c) (wf_safetySys c Hwf)) as (c0 & E0 & H0).
    destruct (clauses_spec c (safetyEnv c) safetyEnv_any) as (c1 & E1 & H1).
    destruct (clauses_spec c (band (initEnv c) (initSys c)) init_any) as (c2 & E2 & H2).
    destruct (liveLines_spec LivenessGuarantee (livenessGuarantees c) (wf_gua c Hwf)) as (l0 & L0 & G0).
    destruct (liveLines_spec LivenessAssumption (livenessAssumptions c) (wf_asm c Hwf)) as (l1 & L1 & G1).
    pose proof (varLines_spec ds 0 (S (length (varNames c))) [] eq_refl eq_refl) as V.
    change (2 * 0) with 0 in V. rewrite V by (rewrite len_names; lia).
    exists c0, c1, c2, l0, l1. rewrite E0, E1, E2, L0, L1. split; [reflexivity|]. auto.
  Qed.

  Lemma flat_nil {A B} (f : A -> list B) l : (forall x, In x l -> f x = []) -> flat_map f l = [].
  Proof. induction l as [|a l IH]; intros H; cbn; [reflexivity|]. rewrite H, IH; auto; [intros; apply H; now right|now left]. Qed.
  Lemma varLinesFrom_in k l x : In x (varLinesFrom k l) -> exists o w a b, x = VarLine o w a b.
  Proof.
    revert k. induction l as [|d l IH]; intros k; cbn; [tauto|]. intros [<-|H]; [unfold varLine; eauto 8|eauto].
  Qed.
  Lemma clausesIn_map k k' l : clausesIn k (map (ClauseLine k') l) =
    if match k, k' with SafetyGuarantee, SafetyGuarantee | SafetyAssumption, SafetyAssumption | Init, Init => true | _, _ => false end
    then l else [].
  Proof. unfold clausesIn. rewrite flat_map_concat_map, map_map. destruct k, k'; induction l as [|a l IH]; cbn in *; auto; now f_equal. Qed.
  Lemma livesIn_map k k' f (l : list (list (list Z))) : livesIn k (map (fun cs => LiveLine k' (f cs)) l) =
    if match k, k' with LivenessGuarantee, LivenessGuarantee | LivenessAssumption, LivenessAssumption => true | _, _ => false end
    then map f l else [].
  Proof. unfold livesIn. rewrite flat_map_concat_map, map_map. destruct k, k'; induction l as [|a l IH]; cbn in *; auto; now f_equal. Qed.
  Lemma clausesIn_app k a b : clausesIn k (a ++ b) = clausesIn k a ++ clausesIn k b.
  Proof. apply flat_map_app. Qed.
  Lemma livesIn_app k a b : livesIn k (a ++ b) = livesIn k a ++ livesIn k b.
  Proof. apply flat_map_app. Qed.
  Lemma clausesIn_vars k l : clausesIn k (varLinesFrom 0 l) = [].
  Proof. apply flat_nil. intros x Hx. apply varLinesFrom_in in Hx. destruct Hx as (o & w & a & b & ->). now destruct k. Qed.
  Lemma livesIn_vars k l : livesIn k (varLinesFrom 0 l) = [].
  Proof. apply flat_nil. intros x Hx. apply varLinesFrom_in in Hx. destruct Hx as (o & w & a & b & ->). now destruct k. Qed.
  Lemma clausesIn_lives k k' f (l : list (list (list Z))) : clausesIn k (map (fun cs => LiveLine k' (f cs)) l) = [].
  Proof. apply flat_nil. intros x Hx. apply in_map_iff in Hx. destruct Hx as (y & <- & _). reflexivity. Qed.
  Lemma livesIn_clauses k k' l : livesIn k (map (ClauseLine k') l) = [].
  Proof. apply flat_nil. intros x Hx. apply in_map_iff in Hx. destruct Hx as (y & <- & _). reflexivity. Qed.
End PROOF.

Ltac cnf_lines := rewrite ?clausesIn_app, ?livesIn_app, ?clausesIn_vars, ?livesIn_vars, ?clausesIn_map, ?livesIn_map,
  ?clausesIn_lives, ?livesIn_clauses, ?app_nil_r, ?app_nil_l; cbn [app].

(** The computation ends without an exception.  The clauses of each of the three kinds
    are satisfied by exactly those pairs of a current and a next valuation of the
    declared variables that satisfy the respective part of the specification. *)
Theorem C27_clauses : forall c ds, wf c -> declares c ds ->
  exists out, computeCNF c = COk out /\
    forall s t : state,
      cnfSat (numberVal s t) (clausesIn SafetyGuarantee out) = g_safeS (game_of c) s t /\
      cnfSat (numberVal s t) (clausesIn SafetyAssumption out) = g_safeE (game_of c) s t /\
      cnfSat (numberVal s t) (clausesIn Init out) = g_initE (game_of c) s && g_initS (game_of c) s.
Proof.
  intros c ds Hwf Hds. destruct (computeCNF_spec c ds Hwf Hds) as (c0 & c1 & c2 & l0 & l1 & E & H0 & H1 & H2 & _).
  eexists. split; [exact E|]. intros s t. cnf_lines. cbn [game_of g_safeS g_safeE g_initE g_initS]. split; [|split].
  - symmetry. apply (proj1 H0).
  - symmetry. apply (proj1 H1).
  - etransitivity; [symmetry; exact (proj1 H2 (tv s t))|]. rewrite eval_and. f_equal.
    + apply (wf_initEnv c Hwf). intros v [[_ Hv] _]. unfold tv. now rewrite Hv.
    + apply (wf_initSys c Hwf). intros v [_ Hv]. unfold tv. now rewrite Hv.
Qed.
Print Assumptions C27_clauses.

(** The lines for the liveness properties: there is one line for each of them, in the
    same order, and an infinite sequence satisfies one of the listed cubes infinitely often
    if and only if it satisfies the liveness property infinitely often.  (Cubes over next
    values only are printed with current values instead, so the line need not be equivalent to
    the property in a single step.) *)
Theorem C27_liveness : forall c ds, wf c -> declares c ds ->
  exists out, computeCNF c = COk out /\
    (let same := Forall2 (fun p cubes => forall pi : nat -> state,
        inf_often p pi <-> inf_often (fun s t => dnfSat (numberVal s t) cubes) pi) in
     same (g_liveG (game_of c)) (livesIn LivenessGuarantee out) /\
     same (g_liveA (game_of c)) (livesIn LivenessAssumption out)).
Proof.
  intros c ds Hwf Hds. destruct (computeCNF_spec c ds Hwf Hds) as (c0 & c1 & c2 & l0 & l1 & E & _ & _ & _ & G0 & G1).
  eexists. split; [exact E|]. cbv zeta. cnf_lines. cbn [game_of g_liveG g_liveA].
  assert (forall its css, Forall2 (fun it cs => (forall e, eval it e = dnfSat (valOf e) cs) /\
        forall cl l, In cl cs -> In l cl -> (1 <= Z.abs l <= Z.of_nat (length (varTypes c)))%Z) its css ->
     Forall2 (fun p cubes => forall pi : nat -> state,
        inf_often p pi <-> inf_often (fun s t => dnfSat (numberVal s t) cubes) pi) (map trans its) (map (map (shift c)) css)) as G.
  { induction 1 as [|it cs its css [H1 H2] F IH]; cbn [map]; constructor; [|exact IH].
    intros pi. rewrite <- (shift_inf c ds Hds cs pi H2). unfold inf_often, trans.
    split; intros H i; destruct (H i) as (m & Hm & X); exists m; (split; [exact Hm|]).
    - rewrite H1 in X. exact X.
    - rewrite H1. exact X. }
  split; apply G; assumption.
Qed.
Print Assumptions C27_liveness.

(** The lines for the variables tell the numbers that the literals refer to: the k-th
    declared variable has the numbers 2k+1 (current value) and 2k+2 (next value), and no
    clause has a literal with another number. *)
Theorem C27_variables : forall c ds, wf c -> declares c ds ->
  exists out, computeCNF c = COk out /\
    length (varsIn out) = length ds /\
    (forall k name o, nth_error ds k = Some (name, o) -> nth_error (varsIn out) k = Some (o, name, 2 * k + 1, 2 * k + 2)) /\
    (forall kind cl l, In cl (clausesIn kind out) -> In l cl -> (1 <= Z.abs l <= 2 * Z.of_nat (length ds))%Z).
Proof.
  intros c ds Hwf Hds. destruct (computeCNF_spec c ds Hwf Hds) as (c0 & c1 & c2 & l0 & l1 & E & H0 & H1 & H2 & _).
  eexists. split; [exact E|].
  assert (varsIn (varLinesFrom 0 ds ++ map (ClauseLine SafetyGuarantee) c0 ++ map (ClauseLine SafetyAssumption) c1 ++
        map (ClauseLine Init) c2 ++ map (fun cs => LiveLine LivenessGuarantee (map (shift c) cs)) l0 ++
        map (fun cs => LiveLine LivenessAssumption (map (shift c) cs)) l1) = varsIn (varLinesFrom 0 ds)) as EV.
  { unfold varsIn. rewrite !flat_map_app.
    assert (forall k l, flat_map (fun l => match l with VarLine o name a b => [(o, name, a, b)] | _ => [] end) (map (ClauseLine k) l) = []) as N1.
    { intros k l. apply flat_nil. intros x Hx. apply in_map_iff in Hx. destruct Hx as (y & <- & _). reflexivity. }
    assert (forall k (f : list (list Z) -> list (list Z)) l, flat_map (fun l => match l with VarLine o name a b => [(o, name, a, b)] | _ => [] end) (map (fun cs => LiveLine k (f cs)) l) = []) as N2.
    { intros k f l. apply flat_nil. intros x Hx. apply in_map_iff in Hx. destruct Hx as (y & <- & _). reflexivity. }
    rewrite !N1, !N2. now rewrite !app_nil_r. }
  rewrite EV. split; [|split].
  - clear. generalize 0. induction ds as [|d l IH]; intros i; cbn; [reflexivity|]. now rewrite IH.
  - clear. intros k name o.
    enough (forall i, nth_error ds k = Some (name, o) ->
      nth_error (varsIn (varLinesFrom i ds)) k = Some (o, name, 2 * (i + k) + 1, 2 * (i + k) + 2)) as G by exact (G 0).
    intros i. revert i k.
    induction ds as [|d l IH]; intros i [|k]; try discriminate.
    + intros E. injection E as ->. rewrite Nat.add_0_r. reflexivity.
    + intros E. cbn [nth_error] in E. cbn [varLinesFrom varsIn flat_map app varLine nth_error].
      change (nth_error (varsIn (varLinesFrom (S i) l)) k = Some (o, name, 2 * (i + S k) + 1, 2 * (i + S k) + 2)).
      rewrite (IH (S i) k E). do 2 f_equal; [f_equal|]; lia.
  - intros kind cl l Hcl Hl. rewrite (len_types c ds Hds) in *.
    replace (2 * Z.of_nat (length ds))%Z with (Z.of_nat (2 * length ds)) by lia.
    revert Hcl. cnf_lines. destruct kind; cbn [app]; rewrite ?app_nil_r; intros Hcl; [apply (proj2 H0 cl l)|apply (proj2 H1 cl l)|apply (proj2 H2 cl l)]; auto.
Qed.
Print Assumptions C27_variables.

Example C27_example : wf exR /\ declares exR [("a"%string, false); ("b"%string, true)] /\
  exists out, computeCNF exR = COk out /\
    clausesIn SafetyGuarantee out = [[-2; 4]%Z] /\ clausesIn SafetyAssumption out = [[-2; -3]%Z] /\
    clausesIn Init out = [[-3]; [-1]]%Z /\
    livesIn LivenessGuarantee out = [[[3]]; [[-3]]]%Z /\ livesIn LivenessAssumption out = [[[1]]; [[-1]]]%Z.
Proof.
  split; [exact exR_wf|]. split; [split; reflexivity|]. eexists. split; [vm_compute; reflexivity|].
  vm_compute. repeat split.
Qed.
(** A liveness property over next values only is printed over current values: b' as [[3]]. *)
Example C27_example_shift : cubes exR (bvar 3) = COk [[3%Z]] /\ cubes exR (band (bvar 3) (bvar 0)) = COk [[1; 4]%Z].
Proof. vm_compute. repeat split. Qed.
