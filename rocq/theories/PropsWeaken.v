(** * Weakened safety assumptions (C36, C54) *)

From Coq Require Import String ZArith Arith List Bool Lia Sorted.
From Verif Require Import BDD Loop Spec VarTypes Synth Sem FixBase Verdict Explicit Cnf Assume AssumeSpec AssumeProofs Weaken WeakenSpec WeakenProofs Parser CnfSpec PropsParser PropsCnf.
Import ListNotations.

(** The clauses printed still make the specification realizable.  Since they are computed
    for unrealizable specifications as well, the computation always has a result. *)
Theorem C36_sufficient : forall c, wf c -> exists out, weakenedAssumptions c = Some out /\
  (forall v, In v out -> List.length v = List.length (varTypes c)) /\
  (realizable (game_of c) -> realizable (with_assumptions (game_of c) (map clause_holds out) (g_liveA (game_of c)))).
Proof.
  intros c W. destruct (essentialClauses_spec c W) as (ess & E & I1 & I2 & _).
  unfold weakenedAssumptions. rewrite E. eexists. split; [reflexivity|].
  destruct (filterClauses_spec ess btrue []) as (_ & F2 & F3). split.
  - intros v Hv. destruct (F2 v Hv) as [[]|(u & Hu & [L _])]. rewrite L. apply (I1 u Hu).
  - intros R. apply I2 in R. revert R. apply fewer_realizable. apply (fewer_withA c).
    unfold allE. intros e. rewrite !forallb_forall. intros H u Hu. destruct (F3 u Hu) as (x & Hx & L).
    eapply literals_holds; [exact L|auto].
Qed.
Print Assumptions C36_sufficient.

(** Each printed clause consists of literals of a clause that is implied by the safety
    assumptions, and each of the latter is needed.  Missing: the printed clauses
    themselves are implied and needed (see [C36_implied_refuted]). *)
Theorem C36_literals_partial : forall c, wf c -> exists out clauses, weakenedAssumptions c = Some out /\
  (forall v, In v out -> exists v', In v' clauses /\ literals_of v v') /\
  (forall v', In v' clauses -> exists v, In v out /\ literals_of v v') /\
  (forall v', In v' clauses -> forall s t, g_safeE (game_of c) s t = true -> clause_holds v' s t = true) /\
  (realizable (game_of c) -> realizable (with_assumptions (game_of c) (map clause_holds clauses) (g_liveA (game_of c)))) /\
  (forall v', In v' clauses -> ~ realizable (with_assumptions (game_of c)
      (map clause_holds (remove (list_eq_dec Z.eq_dec) v' clauses)) (g_liveA (game_of c)))).
Proof.
  intros c W. destruct (essentialClauses_spec c W) as (ess & E & I1 & I2 & I3).
  unfold weakenedAssumptions. rewrite E. eexists. exists ess. split; [reflexivity|].
  destruct (filterClauses_spec ess btrue []) as (_ & F2 & F3). split; [|split; [|split; [|split]]].
  - intros v Hv. destruct (F2 v Hv) as [[]|X]. exact X.
  - exact F3.
  - intros v Hv. apply (I1 v Hv).
  - exact I2.
  - exact I3.
Qed.
Print Assumptions C36_literals_partial.

(** If at most one clause is printed, then the full claim holds. *)
Theorem C36_single_partial : forall c out, wf c -> realizable (game_of c) -> weakenedAssumptions c = Some out -> List.length out <= 1 ->
  (forall v, In v out -> forall s t, g_safeE (game_of c) s t = true -> clause_holds v s t = true) /\
  realizable (with_assumptions (game_of c) (map clause_holds out) (g_liveA (game_of c))) /\
  (forall v, In v out -> ~ realizable (with_assumptions (game_of c)
      (map clause_holds (remove (list_eq_dec Z.eq_dec) v out)) (g_liveA (game_of c)))).
Proof.
  intros c out W R EO HL. destruct (essentialClauses_spec c W) as (ess & E & I1 & I2 & I3).
  unfold weakenedAssumptions in EO. rewrite E in EO. injection EO as EO. specialize (I2 R).
  destruct (filterClauses_spec ess btrue []) as (_ & _ & F3). rewrite EO in F3.
  destruct ess as [|v ess].
  - cbn in EO. subst out. split; [intros v []|]. split; [exact I2|intros v []].
  - assert (Hv : In v out) by (rewrite <- EO; apply filterClauses_first; [apply (I1 v); now left|reflexivity]).
    assert (Ho : out = [v]) by (destruct out as [|a [|b l]]; [destruct Hv|destruct Hv as [->|[]]; reflexivity|cbn in HL; lia]).
    rewrite Ho in *. clear Ho EO.
    assert (Hsub : forall u, In u (v :: ess) -> u = v).
    { intros u Hu. destruct (list_eq_dec Z.eq_dec u v) as [|Hn]; auto. exfalso. apply (I3 u Hu). revert I2.
      apply fewer_realizable. apply (fewer_withA c). unfold allE. intros e. rewrite !forallb_forall. intros H.
      assert (Hv' : clauseE v e = true) by (apply H, in_in_remove; [auto|now left]).
      intros w Hw. destruct (F3 w Hw) as (x & [<-|[]] & L). eapply literals_holds; eauto. }
    split; [|split].
    + intros u [<-|[]]. apply (I1 v). now left.
    + revert I2. apply fewer_realizable. apply (fewer_withA c). unfold allE. intros e. rewrite !forallb_forall.
      intros H w Hw. rewrite (Hsub w Hw). apply H. now left.
    + intros u [<-|[]] R'. apply (I3 v); [now left|]. revert R'. apply fewer_realizable. apply (fewer_withA c).
      intros e _. unfold allE. apply forallb_forall. intros w Hw. apply in_remove in Hw. destruct Hw as [[->|[]] Hn]. now contradict Hn.
Qed.
Print Assumptions C36_single_partial.

(** Variables: there is an assumption [A] that is implied by the safety assumptions and still makes the
    specification realizable, from which no further variable can be dropped: every weaker assumption that does
    not rely on a variable used by [A] is insufficient.  The clauses printed only have literals of variables on which
    [A] relies.  For specifications with input and output variables only, such as those read from files. *)
Theorem C54_variables : forall c ds, wf c -> declares c ds -> exists out (A : state -> state -> bool),
  weakenedAssumptions c = Some out /\
  (forall s t, g_safeE (game_of c) s t = true -> A s t = true) /\
  (realizable (game_of c) -> realizable (with_assumptions (game_of c) [A] (g_liveA (game_of c)))) /\
  (forall i A', relies A i -> ~ relies A' i -> (forall s t, A s t = true -> A' s t = true) ->
     ~ realizable (with_assumptions (game_of c) [A'] (g_liveA (game_of c)))) /\
  (forall v i, In v out -> nth i v 0%Z <> 0%Z -> relies A i).
Proof.
  intros c ds W HD.
  assert (HI : forall i, isPrePostInV c i -> In i (interestingVars c)).
  { intros i [Hi Hp]. unfold interestingVars. apply in_flat_map.
    assert (IA : In i (allVars c)) by (apply in_seq; lia).
    pose proof (len_types c ds HD) as LT. rewrite LT in Hi.
    destruct (even_cases i) as [[k ->]|[k ->]].
    - destruct (nth_error ds k) as [[w o]|] eqn:E; [|apply nth_error_None in E; lia].
      destruct (nth_types c ds HD k w o E) as [T _]. exists (typeOf c (2 * k)). split; [rewrite T; destruct o; cbn; auto|].
      apply filter_In. split; auto. unfold vt_eqb. now destruct (vt_eq_dec _ _).
    - destruct (nth_error ds k) as [[w o]|] eqn:E; [|apply nth_error_None in E; lia].
      destruct (nth_types c ds HD k w o E) as [T1 T]. exists (typeOf c (2 * k + 1)). split.
      + destruct o; [|rewrite T; cbn; auto]. exfalso. rewrite even_double1, div2_double1 in Hp. destruct Hp as [Hp|Hp]; [discriminate|].
        unfold isOut in Hp. unfold typeOf in T1. rewrite T1 in Hp. discriminate.
      + apply filter_In. split; auto. unfold vt_eqb. now destruct (vt_eq_dec _ _). }
  destruct (weakened_variables c W HI) as (A & ess & E & H1 & H2 & H3 & H4).
  unfold weakenedAssumptions. rewrite E. eexists. exists A. split; [reflexivity|]. split; [exact H1|]. split; [exact H2|].
  split; [exact H4|]. intros v i Hv Hi. destruct (filterClauses_spec ess btrue []) as (_ & F2 & _).
  destruct (F2 v Hv) as [[]|(u & Hu & [_ L])]. apply (H3 u i Hu). destruct (L i) as [X|X]; congruence.
Qed.
Print Assumptions C54_variables.

(** The clauses are listed in lexicographic order, and none of them twice. *)
Theorem C54_order : forall c out, weakenedAssumptions c = Some out -> StronglySorted before out /\ NoDup out.
Proof.
  intros c out E. unfold weakenedAssumptions in E. destruct (essentialClauses c) as [ess|]; [|discriminate]. injection E as <-.
  assert (S : StronglySorted before (filterClauses ess btrue [])) by (apply filterClauses_sorted; constructor).
  split; [exact S|]. induction S as [|v l S IH F]; constructor; auto. intros Hv. rewrite Forall_forall in F.
  specialize (F v Hv). clear - F. induction v as [|x v IH]; cbn in F; auto. destruct F as [F|[_ F]]; [lia|auto].
Qed.
Print Assumptions C54_order.

(** Refuted: the printed clauses are implied by the safety assumptions.  In the following
    specification the environment can satisfy its assumptions, but no clause with all its
    literals removed can be satisfied, and one such clause is printed. *)
Definition emptyFile : string :=
  ("[INPUT]" ++ nl ++ "v" ++ nl ++ "w" ++ nl ++ "l" ++ nl ++ "m" ++ nl ++ "[OUTPUT]" ++ nl ++ "b" ++ nl ++
   "[ENV_TRANS]" ++ nl ++ "| ! v' ! l'" ++ nl ++ "| ! w' ! m'" ++ nl ++ "| l' m'" ++ nl ++
   "[SYS_TRANS]" ++ nl ++ "| ! v' ! l'" ++ nl ++ "| ! w' ! m'" ++ nl ++ "| l' m'" ++ nl)%string.
Theorem C36_implied_refuted : exists ord content c out, initContext ord content = POk c /\
  realizable (game_of c) /\ weakenedAssumptions c = Some out /\
  (forall s, exists t, g_safeE (game_of c) s t = true) /\
  exists v, In v out /\ forall s t, clause_holds v s t = false.
Proof.
  exists exOrd, emptyFile. destruct (initContext exOrd emptyFile) as [c|e| |] eqn:E; try (vm_compute in E; discriminate).
  assert (X : match initContext exOrd emptyFile with
          | POk c => checkRealizability c = Realizable /\
             (exists out, weakenedAssumptions c = Some out /\ In (repeat 0%Z 10) out) /\
             isTrue (bforall (varCubePre c) (brestrict 1 false (brestrict 3 false (brestrict 5 true (brestrict 7 true (brestrict 9 true (safetyEnv c))))))) = true
          | _ => True end).
  { vm_compute. split; [reflexivity|]. split; [eexists; split; [reflexivity|]; cbn; tauto|reflexivity]. }
  rewrite E in X. destruct X as (X1 & (out & X2 & X3) & X4). exists c, out. split; [reflexivity|]. split; [|split; [exact X2|split]].
  - destruct (check_cases c (C41_accepted_wf _ _ _ E)) as [[_ R]|[N _]]; [exact R|congruence].
  - intros s. exists (fun k => match k with 0 | 1 => false | _ => true end).
    rewrite isTrue_spec in X4. specialize (X4 (tv s s)). rewrite eval_forall in X4. specialize (X4 (tv s s) ltac:(intros v _; reflexivity)).
    rewrite !eval_restrict in X4. cbn. unfold trans. etransitivity; [|exact X4].
    apply (wf_safetyEnv c (C41_accepted_wf _ _ _ E)). intros v [Hv _].
    assert (L : List.length (varTypes c) = 10) by (assert (Y : match initContext exOrd emptyFile with POk c => List.length (varTypes c) = 10 | _ => True end) by (vm_compute; reflexivity); now rewrite E in Y).
    rewrite L in Hv. do 10 (destruct v as [|v]; [reflexivity|]). lia.
  - exists (repeat 0%Z 10). split; [exact X3|]. intros s t. reflexivity.
Qed.
Print Assumptions C36_implied_refuted.

(** An instance: two clauses, the second of which has lost its literal [l'], and what is
    printed if the assumption is the first clause only. *)
Definition weakenFile (assumption : string) : string :=
  ("[INPUT]" ++ nl ++ "v" ++ nl ++ "l" ++ nl ++ "m" ++ nl ++ "[OUTPUT]" ++ nl ++ "b" ++ nl ++
   "[ENV_TRANS]" ++ nl ++ "| ! v' ! l'" ++ nl ++ assumption ++ nl ++ "| ! v b" ++ nl ++
   "[SYS_TRANS]" ++ nl ++ "| ! v' ! l'" ++ nl ++ assumption ++ nl)%string.
Definition printedFor (file : string) : option (option (list (list Z)) * option (list (list Z))) :=
  match initContext exOrd file with POk c => Some (essentialClauses c, weakenedAssumptions c) | _ => None end.
Example C36_example :
  printedFor (weakenFile "| l' m'") =
    (let first := [0; -1; 0; -1; 0; 0; 0; 0]%Z in
     Some (Some [first; [0; 0; 0; 1; 0; 1; 0; 0]%Z], Some [first; [0; 0; 0; 0; 0; 1; 0; 0]%Z])) /\
  printedFor (weakenFile "") =
    (let first := [0; -1; 0; -1; 0; 0; 0; 0]%Z in Some (Some [first], Some [first])).
Proof. vm_compute. split; reflexivity. Qed.
(** The theorems about the variables and the order of the clauses for the first of these files: there is a clause with the next
    value of m (variable 5), hence the assumption on which the environment is restricted relies on it. *)
Example C54_example : exists c ds out (A : state -> state -> bool), initContext exOrd (weakenFile "| l' m'") = POk c /\ wf c /\ PropsCnf.declares c ds /\
  weakenedAssumptions c = Some out /\ length out = 2 /\ StronglySorted before out /\
  realizable (with_assumptions (game_of c) [A] (g_liveA (game_of c))) /\ relies A 5.
Proof.
  destruct (initContext exOrd (weakenFile "| l' m'")) as [c|e| |] eqn:E; try (vm_compute in E; discriminate). pose proof (C41_accepted_wf _ _ _ E) as W.
  destruct (PropsCnf.C27_loaded _ _ _ E) as (ds & D). destruct (C54_variables c ds W D) as (out & A & H1 & _ & H3 & _ & H5).
  assert (X : match initContext exOrd (weakenFile "| l' m'") with POk c => checkRealizability c = Realizable /\ weakenedAssumptions c = Some [[0; -1; 0; -1; 0; 0; 0; 0]%Z; [0; 0; 0; 0; 0; 1; 0; 0]%Z] | _ => True end) by (vm_compute; split; reflexivity).
  rewrite E in X. destruct X as [X1 X2]. exists c, ds, out, A. split; [reflexivity|]. split; [exact W|]. split; [exact D|]. split; [exact H1|].
  assert (O : out = [[0; -1; 0; -1; 0; 0; 0; 0]%Z; [0; 0; 0; 0; 0; 1; 0; 0]%Z]) by congruence.
  split; [now rewrite O|]. split; [now apply (C54_order c)|]. split.
  - apply H3. destruct (check_cases c W) as [[_ R]|[N _]]; [exact R|congruence].
  - apply (H5 [0; 0; 0; 0; 0; 1; 0; 0]%Z 5); [rewrite O; cbn; auto|discriminate].
Qed.
