(** * C28, C53: analysis of the assumptions *)

From Coq Require Import String Arith List Bool Lia.
From Verif Require Import BDD Loop Spec VarTypes Synth Sem FixBase SynthProofs Verdict Parser FileSpec FileProofs
  Assume AssumeSpec AssumeProofs PropsSynth PropsParser.
Import ListNotations.
Local Open Scope list_scope.

(** Example: a is only given after b, and infinitely often a is not given.  The second
    safety assumption and the second liveness assumption are not needed. *)
Definition asmFile : string :=
  ("[INPUT]" ++ nl ++ "a" ++ nl ++ "[OUTPUT]" ++ nl ++ "b" ++ nl ++
   "[ENV_INIT]" ++ nl ++ "! a" ++ nl ++
   "[ENV_TRANS]" ++ nl ++ "##  a needs b" ++ nl ++ "| ! a' b" ++ nl ++ "| ! a' ! a" ++ nl ++
   "[ENV_LIVENESS]" ++ nl ++ "! a" ++ nl ++ "1" ++ nl ++
   "[SYS_TRANS]" ++ nl ++ "| ! a' b" ++ nl ++ "[SYS_LIVENESS]" ++ nl ++ "b" ++ nl ++ "! b" ++ nl)%string.

(** ** Which assumptions are considered *)

(** The files accepted are those accepted by the other modes and describe the same
    game.  The safety assumptions are the lines of the section [ENV_TRANS], each read as
    a formula, the liveness assumptions those of the game, and each has the name given
    in the preceding comment. *)
Theorem C28_file : forall ord content c,
  (forall p, initParts ord content = POk (c, p) ->
   initContext ord content = POk c /\
   (forall s t, g_safeE (game_of c) s t = forallb (fun q => q s t) (map trans (p_safety p))) /\
   exists LN, annotated None "" (file_lines content) = Some LN /\ layout None (file_lines content) = Some (map fst LN) /\
     Forall2 (fun line b => parseFormula (varNames c) (varTypes c) (allowedF SEnvTrans) ord line = POk (Some b))
       (linesOf SEnvTrans (map fst LN)) (p_safety p) /\
     p_safetyNames p = numbered "Safety Assumption " (namesOf SEnvTrans LN) /\
     p_liveNames p = match namesOf SEnvLive LN with
                     | [] => ["Automatically added TRUE liveness assumption"%string]
                     | l => numbered "Liveness Assumption " l
                     end) /\
  (initContext ord content = POk c -> exists p, initParts ord content = POk (c, p)).
Proof.
  intros ord content c. split; [|apply initParts_total]. intros p H.
  destruct (initParts_spec ord content c p H) as (H1 & HD & H2). split; auto. split; auto.
  intros s t. now apply (safe_split c p HD).
Qed.
Print Assumptions C28_file.
Example C28_file_example : match initParts exOrd asmFile with
  | POk (c, p) => (List.length (p_safety p), p_safetyNames p, p_liveNames p)
  | _ => (0, [], [])
  end = (2, ["a needs b"; "Safety Assumption 2"], ["Liveness Assumption 1"; "Liveness Assumption 2"])%string.
Proof. vm_compute. reflexivity. Qed.

(** ** Unrealizable specifications *)

(** The analysis terminates with a result, and refuses to analyse exactly the unrealizable
    specifications.  Otherwise every assumption gets one report, under its name. *)
Theorem C28_complete : forall ord content c p, initParts ord content = POk (c, p) ->
  exists a, analyzeAssumptions c p = Some a /\
  match a with
  | StartUnrealizable => ~ realizable (game_of c)
  | Reports s l => realizable (game_of c) /\ map fst s = p_safetyNames p /\ map fst l = p_liveNames p
  end.
Proof.
  intros ord content c p H. destruct (initParts_spec ord content c p H) as (_ & HD & _).
  destruct (analysis_spec c p HD) as [HU HR].
  destruct (check_cases c (ds_wf c p HD)) as [[_ R]|[_ R]].
  - destruct (HR R) as (s & l & E & E1 & E2 & _). exists (Reports s l). auto.
  - assert (~ realizable (game_of c)) as NR.
    { intros (f & Hf). destruct (R f) as (x & Hx). apply Hx, Hf. }
    exists StartUnrealizable. split; auto.
Qed.
Print Assumptions C28_complete.

(** ** Safety assumptions *)

(** A safety assumption is reported as crucial if and only if dropping exactly this
    assumption makes the specification unrealizable. *)
Theorem C28_safety : forall ord content c p s l, initParts ord content = POk (c, p) ->
  analyzeAssumptions c p = Some (Reports s l) ->
  forall i n r, nth_error s i = Some (n, r) ->
    let without := with_assumptions (game_of c) (drop i (map trans (p_safety p))) (g_liveA (game_of c)) in
    (r = Crucial <-> ~ realizable without) /\
    means (game_of c) without (forall s t, g_safeE (game_of c) s t = g_safeE without s t) r.
Proof.
  intros ord content c p s l H E i n r Hi without. destruct (C28_complete _ _ _ _ H) as (a & Ea & R).
  rewrite E in Ea. injection Ea as <-. destruct R as [R _].
  destruct (initParts_spec ord content c p H) as (_ & HD & _).
  destruct (analysis_spec c p HD) as [_ HR]. destruct (HR R) as (s' & l' & E' & _ & _ & HS & _).
  rewrite E in E'. injection E' as <- <-. destruct (HS i n r Hi) as [M _]. split; [|exact M].
  split; [intros ->; exact M|]. intros NR. destruct r; auto; destruct M as [M _]; contradiction.
Qed.
Print Assumptions C28_safety.
Example C28_safety_example : match initParts exOrd asmFile with
  | POk (c, p) => match analyzeAssumptions c p with Some (Reports s l) => (s, l) | _ => ([], []) end
  | _ => ([], [])
  end = ([("a needs b", Crucial); ("Safety Assumption 2", Superfluous)],
         [("Liveness Assumption 1", Crucial); ("Liveness Assumption 2", Crucial)])%string.
Proof. vm_compute. reflexivity. Qed.

(** ** Liveness assumptions *)

(** Full claim: a liveness assumption is reported as crucial if and only if dropping
    exactly this assumption makes the specification unrealizable.

    What holds: needed assumptions are always reported as crucial.  If there are at least
    two liveness assumptions, then the report is the correct one for dropping the liveness
    assumption together with all safety assumptions, hence for specifications without
    safety assumptions the claim holds.  If there is just one liveness assumption (perhaps
    the automatically added one), it is reported as crucial whenever there is an initial
    position at all.  The two theorems below show that the claim fails in the remaining
    cases. *)
Theorem C28_liveness_partial : forall ord content c p s l, initParts ord content = POk (c, p) ->
  analyzeAssumptions c p = Some (Reports s l) ->
  forall i n r, nth_error l i = Some (n, r) ->
    let without := with_assumptions (game_of c) (map trans (p_safety p)) (drop i (g_liveA (game_of c))) in
    let unsafe := with_assumptions (game_of c) [] (drop i (g_liveA (game_of c))) in
    (~ realizable without -> r = Crucial) /\
    (2 <= List.length (g_liveA (game_of c)) -> means (game_of c) unsafe False r) /\
    (2 <= List.length (g_liveA (game_of c)) -> p_safety p = [] -> (r = Crucial <-> ~ realizable without)) /\
    (List.length (g_liveA (game_of c)) = 1 -> (r = Crucial <-> exists s, g_initE (game_of c) s = true)).
Proof.
  intros ord content c p s l H E i n r Hi without unsafe. destruct (C28_complete _ _ _ _ H) as (a & Ea & R).
  rewrite E in Ea. injection Ea as <-. destruct R as [R _].
  destruct (initParts_spec ord content c p H) as (_ & HD & _).
  destruct (analysis_spec c p HD) as [_ HR]. destruct (HR R) as (s' & l' & E' & _ & _ & _ & HL & HO).
  rewrite E in E'. injection E' as <- <-.
  assert (F : realizable unsafe -> realizable without).
  { apply fewer_realizable. constructor; auto. apply incl_refl. }
  assert (N2 : 2 <= List.length (g_liveA (game_of c)) -> (r = Crucial <-> ~ realizable unsafe)).
  { intros L. destruct (HL L i n r Hi) as [M _]. split; [intros ->; exact M|].
    intros NR. destruct r; auto; destruct M as [M _]; contradiction. }
  assert (LN : 1 <= List.length (g_liveA (game_of c))).
  { cbn [game_of g_liveA]. rewrite map_length. pose proof (wf_asm_ne c (ds_wf c p HD)). destruct (livenessAssumptions c); [congruence|cbn; lia]. }
  split; [|split; [|split]].
  - intros NW. destruct (Nat.eq_dec (List.length (g_liveA (game_of c))) 1) as [L1|L1].
    + apply (HO L1 i n r Hi).
      destruct (find_pos c (ds_wf c p HD) (bnot (initEnv c))) as [F1|(s0 & F1)].
      * apply dep_not. apply dep_weaken with (2 := wf_initEnv c (ds_wf c p HD)). now intros v [Hv _].
      * exfalso. apply NW. exists (fun _ x => x). intros x Hx. exfalso.
        specialize (F1 (play without (fun _ x => x) x 0)). rewrite pos_not in F1. apply negb_true_iff in F1.
        change (pos (initEnv c) (play without (fun _ x => x) x 0) = true) in Hx. congruence.
      * exists s0. rewrite pos_not in F1. now apply negb_false_iff in F1.
    + apply N2; [lia|]. intros X. apply NW, F, X.
  - intros L. exact (proj1 (HL L i n r Hi)).
  - intros L PS. rewrite (N2 L). unfold unsafe, without. rewrite PS. reflexivity.
  - intros L1. exact (HO L1 i n r Hi).
Qed.
Print Assumptions C28_liveness_partial.
(** Without safety assumptions. *)
Definition asmFile2 : string :=
  ("[INPUT]" ++ nl ++ "a" ++ nl ++ "[OUTPUT]" ++ nl ++ "b" ++ nl ++
   "[ENV_LIVENESS]" ++ nl ++ "! a" ++ nl ++ "| a b" ++ nl ++
   "[SYS_TRANS]" ++ nl ++ "| ! a' ! b'" ++ nl ++ "[SYS_LIVENESS]" ++ nl ++ "b" ++ nl)%string.
Example C28_liveness_example : match initParts exOrd asmFile2 with
  | POk (c, p) => match analyzeAssumptions c p with Some (Reports s l) => Some (p_safety p, s, l) | _ => None end
  | _ => None
  end = Some ([], [], [("Liveness Assumption 1", Crucial); ("Liveness Assumption 2", Superfluous)])%string.
Proof. vm_compute. reflexivity. Qed.

(** ** Goals that are reached faster *)

(** For an assumption that is neither crucial nor needed for any winning position, the report lists exactly the
    goals that can, from some position, be reached with fewer waits for a liveness assumption thanks to this
    assumption; it is called superfluous exactly if there is no such goal.  (As in the theorem above, for
    liveness assumptions the comparison is with the specification without any safety assumption.)
    The remark about the most general strategy is not covered. *)
Theorem C53_easier : forall ord content c p s l, initParts ord content = POk (c, p) ->
  analyzeAssumptions c p = Some (Reports s l) ->
  (forall i n r, nth_error s i = Some (n, r) ->
     lists (game_of c) (with_assumptions (game_of c) (drop i (map trans (p_safety p))) (g_liveA (game_of c))) r) /\
  (2 <= List.length (g_liveA (game_of c)) -> forall i n r, nth_error l i = Some (n, r) ->
     lists (game_of c) (with_assumptions (game_of c) [] (drop i (g_liveA (game_of c)))) r).
Proof.
  intros ord content c p s l H E. destruct (C28_complete _ _ _ _ H) as (a & Ea & R).
  rewrite E in Ea. injection Ea as <-. destruct R as [R _].
  destruct (initParts_spec ord content c p H) as (_ & HD & _).
  destruct (analysis_spec c p HD) as [_ HR]. destruct (HR R) as (s' & l' & E' & _ & _ & HS & HL & _).
  rewrite E in E'. injection E' as <- <-. split.
  - intros i n r Hi. apply (HS i n r Hi).
  - intros L i n r Hi. apply (HL L i n r Hi).
Qed.
Print Assumptions C53_easier.
(** The goal b can be reached after z, but also after x and then y.  Neither y nor z
    is needed alone, but each saves waiting. *)
Definition asmFile3 : string :=
  ("[INPUT]" ++ nl ++ "x" ++ nl ++ "y" ++ nl ++ "z" ++ nl ++ "[OUTPUT]" ++ nl ++ "b" ++ nl ++ "c" ++ nl ++
   "[ENV_LIVENESS]" ++ nl ++ "x" ++ nl ++ "y" ++ nl ++ "z" ++ nl ++
   "[SYS_TRANS]" ++ nl ++ "| ! c' | c x" ++ nl ++ "| ! b' | z & c y" ++ nl ++ "[SYS_LIVENESS]" ++ nl ++ "c" ++ nl ++ "b" ++ nl)%string.
Example C53_easier_example : match initParts exOrd asmFile3 with
  | POk (c, p) => match analyzeAssumptions c p with Some (Reports s l) => Some (s, l) | _ => None end
  | _ => None
  end = Some ([], [("Liveness Assumption 1", HelpsRobotics); ("Liveness Assumption 2", Easier [(0, false); (1, false)]);
                   ("Liveness Assumption 3", Easier [(0, false); (1, false)])])%string.
Proof. vm_compute. reflexivity. Qed.

(** A liveness assumption that is the only one is reported as crucial even if the
    specification is realizable without it. *)
Definition singleFile : string :=
  ("[INPUT]" ++ nl ++ "a" ++ nl ++ "[OUTPUT]" ++ nl ++ "b" ++ nl ++
   "[ENV_LIVENESS]" ++ nl ++ "a" ++ nl ++ "[SYS_LIVENESS]" ++ nl ++ "b" ++ nl)%string.

Lemma realizable_none g safe q0 : (forall s t, q0 s t = true) ->
  realizable (with_assumptions g safe [q0]) -> realizable (with_assumptions g safe []).
Proof.
  intros Q0 (f & Hf). exists f. intros x.
  assert (forall n, play (with_assumptions g safe []) f x n = play (with_assumptions g safe [q0]) f x n) as E.
  { intros n. unfold play. f_equal. induction n as [|n IH]; cbn [history]; [reflexivity|]. now rewrite IH. }
  intros HI. rewrite E in HI. destruct (Hf x HI) as [H1 [H2 H3]]. split; [now rewrite E|]. split.
  - intros n. rewrite !E. intros Hn. apply H2. intros m Hm. rewrite <- !E. now apply Hn.
  - intros HE _ q Hq n. destruct (H3) with (p := q) (n := n) as (m & Hm & Hq'); auto.
    + intros k. rewrite <- !E. apply HE.
    + intros r [<-|[]] k. exists k. auto.
    + exists m. split; auto. now rewrite !E.
Qed.

Theorem C28_single_refuted : exists content c p l n, initParts exOrd content = POk (c, p) /\
  analyzeAssumptions c p = Some (Reports [] l) /\ nth_error l 0 = Some (n, Crucial) /\
  realizable (with_assumptions (game_of c) (map trans (p_safety p)) (drop 0 (g_liveA (game_of c)))).
Proof.
  exists singleFile. destruct (initParts exOrd singleFile) as [[c p]|e| |] eqn:E; try (vm_compute in E; discriminate).
  exists c, p, [("Liveness Assumption 1"%string, Crucial)], "Liveness Assumption 1"%string. split; [reflexivity|]. split; [|split; [reflexivity|]].
  - assert (match initParts exOrd singleFile with
            | POk (c, p) => analyzeAssumptions c p = Some (Reports [] [("Liveness Assumption 1"%string, Crucial)])
            | _ => True end) as X by (vm_compute; reflexivity).
    now rewrite E in X.
  - destruct (initParts_spec _ _ _ _ E) as (_ & HD & _). pose proof (ds_wf c p HD) as W.
    assert (match initParts exOrd singleFile with
            | POk (c, p) => (checkRealizability (withAssumptions c btrue [btrue]), List.length (livenessAssumptions c), p_safety p) = (Realizable, 1, [])
            | _ => True end) as X by (vm_compute; reflexivity).
    rewrite E in X. injection X as X1 X2 X3. rewrite X3. cbn [game_of g_liveA map].
    assert (drop 0 (map trans (livenessAssumptions c)) = []) as ->.
    { destruct (livenessAssumptions c) as [|b [|]]; try discriminate. reflexivity. }
    apply realizable_none with (q0 := trans btrue); [intros s t; apply eval_true|].
    assert (wf (withAssumptions c btrue [btrue])) as W'.
    { apply with_wf; [exact W|apply dep_true|repeat constructor; apply dep_true|discriminate]. }
    destruct (check_cases _ W') as [[_ R]|[R _]]; [|congruence].
    revert R. apply fewer_realizable. constructor; auto.
    apply incl_refl.
Qed.
Print Assumptions C28_single_refuted.

(** With two liveness assumptions, both are reported as crucial although the first one
    (and also the second one) can be dropped: it is the safety assumption that is needed. *)
Definition twoFile : string :=
  ("[INPUT]" ++ nl ++ "a" ++ nl ++ "[OUTPUT]" ++ nl ++ "b" ++ nl ++ "[ENV_INIT]" ++ nl ++ "! a" ++ nl ++
   "[ENV_TRANS]" ++ nl ++ "! a'" ++ nl ++ "[ENV_LIVENESS]" ++ nl ++ "! a" ++ nl ++ "b" ++ nl ++
   "[SYS_TRANS]" ++ nl ++ "! a'" ++ nl)%string.
Theorem C28_liveness_safety_refuted : exists content c p sr l n, initParts exOrd content = POk (c, p) /\
  analyzeAssumptions c p = Some (Reports sr l) /\ nth_error l 0 = Some (n, Crucial) /\
  realizable (with_assumptions (game_of c) (map trans (p_safety p)) (drop 0 (g_liveA (game_of c)))) /\
  List.length (g_liveA (game_of c)) = 2.
Proof.
  exists twoFile. destruct (initParts exOrd twoFile) as [[c p]|e| |] eqn:E; try (vm_compute in E; discriminate).
  exists c, p, [("Safety Assumption 1"%string, Crucial)],
    [("Liveness Assumption 1"%string, Crucial); ("Liveness Assumption 2"%string, Crucial)], "Liveness Assumption 1"%string.
  destruct (initParts_spec _ _ _ _ E) as (_ & HD & _). pose proof (ds_wf c p HD) as W.
  assert (match initParts exOrd twoFile with
            | POk (c, p) => (checkRealizability (withAssumptions c (safetyEnv c) (drop 0 (livenessAssumptions c))),
                             List.length (livenessAssumptions c)) = (Realizable, 2)
            | _ => True end) as X by (vm_compute; reflexivity).
  rewrite E in X. injection X as X1 X2.
  split; [reflexivity|]. split; [|split; [reflexivity|split]].
  - assert (match initParts exOrd twoFile with
            | POk (c, p) => analyzeAssumptions c p = Some (Reports [("Safety Assumption 1", Crucial)]
                [("Liveness Assumption 1", Crucial); ("Liveness Assumption 2", Crucial)])%string
            | _ => True end) as Y by (vm_compute; reflexivity).
    now rewrite E in Y.
  - assert (wf (withAssumptions c (safetyEnv c) (drop 0 (livenessAssumptions c)))) as W'.
    { apply with_wf; [exact W|apply (wf_safetyEnv c W)| |].
      - apply Forall_forall. intros b Hb. apply drop_incl in Hb. pose proof (wf_asm c W) as D. rewrite Forall_forall in D. auto.
      - destruct (livenessAssumptions c) as [|x [|y l]]; discriminate. }
    destruct (check_cases _ W') as [[_ R]|[R _]]; [|congruence].
    revert R. apply fewer_realizable. constructor; auto.
    + intros s t Hst. cbn [g_safeE game_of withAssumptions safetyEnv with_assumptions] in *. rewrite <- Hst. apply (safe_split c p HD).
    + cbn [game_of g_liveA with_assumptions withAssumptions livenessAssumptions]. rewrite <- drop_map. apply incl_refl.
  - cbn [game_of g_liveA]. now rewrite map_length.
Qed.
Print Assumptions C28_liveness_safety_refuted.
