(** * Properties of permissive strategies (C21) *)

From Coq Require Import String Ascii Arith List Bool Lia.
From Verif Require Import FileSpec BDD Loop Spec VarTypes Synth Sem FixBase GameSound SynthProofs Verdict Solvers SolversProofs
  PropsSynth AutSpec OutputSpec Explicit DetProofs ExplicitProofs ExplicitGame OutputProofs PropsExplicit Permissive PermissiveProofs.
Import ListNotations.
Open Scope string_scope.

Local Arguments isOut : simpl never.

(** The automaton printed with --extractExplicitPermissiveStrategy. *)
Definition permAutomaton (alg : algorithm) (robotics : bool) (c : ctx) : option (list node) :=
  match computePermissive alg robotics c with
  | Some (Realizable, out) => Some (map fst out)
  | _ => None
  end.

Lemma permissive_cases alg robotics c : wf c ->
  exists w data L keys out, solve alg c = Some (w, data) /\ exactW c w /\ dep (isPreV c) w /\
    (forall j, j < List.length (livenessGuarantees c) -> dataOf j data = map fst (L j) /\
       goodEnt c w (nth j (livenessGuarantees c) btrue) (L j) w) /\
    result c true false (permissive c data) w keys out /\
    computePermissive alg robotics c =
      match (if robotics then checkRealizabilityRobotics c else checkRealizability c) with
      | Realizable => Some (Realizable, out) | v => Some (v, []) end.
Proof.
  intros Hwf. destruct (solve_spec c Hwf alg) as (w & d & E & S).
  destruct (solved_ranked c Hwf w d S) as (L & HL).
  assert (Hw : dep (isPreV c) w) by (eapply solved_pre; eauto).
  assert (HL' : forall j, j < List.length (livenessGuarantees c) -> dataOf j d = map fst (L j) /\
       goodEnt c w (nth j (livenessGuarantees c) btrue) (L j) w).
  { intros j Hj. destruct (HL j Hj) as (A & B & _). auto. }
  destruct (extractPermissive_spec c Hwf w d L Hw HL') as (keys & out & E1 & R).
  exists w, d, L, keys, out. split; auto. split; [eapply solved_exact; eauto|]. split; auto. split; auto. split; auto.
  pose proof (verdict_same alg robotics c Hwf) as V. unfold verdictWith in V. rewrite E in V.
  unfold computePermissive. rewrite E, E1. cbv zeta. rewrite V.
  destruct (if robotics then checkRealizabilityRobotics c else checkRealizability c); reflexivity.
Qed.

Lemma permAutomaton_cases alg robotics c A : wf c -> permAutomaton alg robotics c = Some A ->
  exists w data L keys out, solve alg c = Some (w, data) /\ exactW c w /\ dep (isPreV c) w /\
    (forall j, j < List.length (livenessGuarantees c) -> dataOf j data = map fst (L j) /\
       goodEnt c w (nth j (livenessGuarantees c) btrue) (L j) w) /\
    result c true false (permissive c data) w keys out /\ A = map fst out /\
    computePermissive alg robotics c = Some (Realizable, out).
Proof.
  intros Hwf. unfold permAutomaton.
  destruct (permissive_cases alg robotics c Hwf) as (w & d & L & keys & out & E & HX & Hw & HL & R & E2).
  intros H. rewrite E2 in H. exists w, d, L, keys, out. rewrite E2.
  destruct (if robotics then _ else _); try discriminate. injection H as <-. auto 8.
Qed.

(** ** C21 *)

(** Extraction terminates, with an automaton if and only if the specification is
    realizable. *)
Theorem C21_terminates : forall alg (robotics : bool) c, wf c ->
  let v := if robotics then checkRealizabilityRobotics c else checkRealizability c in
  (v = Realizable -> exists A, permAutomaton alg robotics c = Some A) /\
  (v = Unrealizable -> computePermissive alg robotics c = Some (Unrealizable, [])).
Proof.
  intros alg robotics c Hwf v.
  destruct (permissive_cases alg robotics c Hwf) as (w & d & L & keys & out & E & HX & Hw & HL & R & E2).
  fold v in E2. unfold permAutomaton. rewrite E2. split; intros ->; eauto.
Qed.
Print Assumptions C21_terminates.

(** Every winning position is printed with goal number 0, and only winning
    positions are printed. *)
Theorem C21_positions : forall alg robotics c A, wf c -> permAutomaton alg robotics c = Some A ->
  (forall s, winning (game_of c) s -> exists v, In v A /\ n_rank v = 0 /\ same (nvars c) (val v) s) /\
  (forall v, In v A -> winning (game_of c) (val v)) /\
  map n_num A = seq 0 (List.length A) /\
  (forall v, In v A -> List.length (n_vals v) = nvars c /\ n_rank v < List.length (g_liveG (game_of c)) /\
     forall n, In n (n_succ v) -> exists u, edge A v u /\ n_num u = n).
Proof.
  intros alg robotics c A Hwf H.
  destruct (permAutomaton_cases _ _ _ _ Hwf H) as (w & d & L & keys & out & E & HX & Hw & HL & R & -> & _).
  split; [|split; [|split]].
  - intros s Hs. apply (exact_winning c w HX) in Hs.
    pose proof (r_init _ _ _ _ _ _ _ R _ Hs) as HK. apply In_nth_error in HK. destruct HK as (i & HK).
    destruct (A_key c true false _ _ keys out R _ _ _ HK) as (v & _ & Hin & _ & Er & Ev).
    exists v. split; auto. split; auto. intros k Hlt. unfold val. rewrite Ev. now apply (ofVec_toVec (nvars c)).
  - intros v Hv. apply (exact_winning c w HX).
    apply (node_W c true false _ _ keys out R w); auto. intros j s t. apply (permT_good c Hwf w d L HL).
  - apply (A_numbers c Hwf true false _ _ keys out R).
  - intros v Hv. destruct (A_shape c true false _ _ keys out R v Hv) as [S1 S2].
    split; auto. split; [cbn; now rewrite map_length|]. intros n Hn.
    now apply (succ_printed c true false _ _ keys out R).
Qed.
Print Assumptions C21_positions.

(** Every permitted next input has a successor; no two successors of a state have
    the same position. *)
Theorem C21_input_complete : forall alg robotics c A, wf c -> permAutomaton alg robotics c = Some A ->
  (forall v x, In v A -> g_safeE (game_of c) (val v) x = true ->
     exists u, edge A v u /\ same_in (game_of c) (nvars c) (val u) x) /\
  (forall v u u', edge A v u -> edge A v u' -> same (nvars c) (val u) (val u') -> u = u').
Proof.
  intros alg robotics c A Hwf H.
  destruct (permAutomaton_cases _ _ _ _ Hwf H) as (w & d & L & keys & out & E & HX & Hw & HL & R & -> & _).
  split.
  - intros v x Hv Hx. destruct (permT_covers c Hwf w d L HL (n_rank v) (val v) x) as (y & Hy); auto.
    + now apply (A_shape c true false _ _ keys out R).
    + apply (node_W c true false _ _ keys out R w); auto. intros j s t. apply (permT_good c Hwf w d L HL).
    + destruct (edge_total c true false _ _ keys out R v _ Hv Hy) as (u & Eu & Su).
      exists u. split; auto. intros k Hlt Ho. cbn in Su. rewrite Su by auto. unfold mrg. cbn in Ho. now rewrite Ho.
  - intros v u u'. apply (edge_unique c Hwf true false _ _ keys out R).
Qed.
Print Assumptions C21_input_complete.

(** Every edge satisfies both transition parts of the specification. *)
Theorem C21_safe : forall alg robotics c A, wf c -> permAutomaton alg robotics c = Some A ->
  forall v u, edge A v u -> g_safeS (game_of c) (val v) (val u) = true /\ g_safeE (game_of c) (val v) (val u) = true.
Proof.
  intros alg robotics c A Hwf H v u Ed.
  destruct (permAutomaton_cases _ _ _ _ Hwf H) as (w & d & L & keys & out & E & HX & Hw & HL & R & -> & _).
  destruct (edge_safe c true false _ _ keys out R w) with (v := v) (u := u) as [S1 S2]; auto.
  intros j s t. apply (permT_good c Hwf w d L HL).
Qed.
Print Assumptions C21_safe.

(** Every infinite path on which all liveness assumptions hold infinitely often
    satisfies all liveness guarantees infinitely often. *)
Theorem C21_liveness : forall alg robotics c A, wf c -> permAutomaton alg robotics c = Some A ->
  forall p, path A p ->
  (forall q, In q (g_liveA (game_of c)) -> inf_often q (positions p)) ->
  (forall q, In q (g_liveG (game_of c)) -> inf_often q (positions p)).
Proof.
  intros alg robotics c A Hwf H p HP HA.
  destruct (permAutomaton_cases _ _ _ _ Hwf H) as (w & d & L & keys & out & E & HX & Hw & HL & R & EA & _).
  subst A. apply (path_live c Hwf true false (permissive c d) w keys out R w L); auto.
  - intros j s t. apply (permT_good c Hwf w d L HL).
  - intros j s t. apply (permT_follow c Hwf w d L HL).
  - intros j Hj. now apply HL.
  - exists 0. intros n _. now apply (C21_safe _ _ _ _ Hwf H).
Qed.
Print Assumptions C21_liveness.

Theorem C21_correct : forall alg robotics c A, wf c -> permAutomaton alg robotics c = Some A ->
  forall p, path A p -> g_initS (game_of c) (val (p 0)) = true -> objective (game_of c) (positions p).
Proof.
  intros alg robotics c A Hwf H p HP HI _. split; auto. split.
  - intros n _. now apply (C21_safe _ _ _ _ Hwf H).
  - intros _. now apply (C21_liveness _ _ _ _ Hwf H).
Qed.
Print Assumptions C21_correct.

(** The permissive automaton contains the automaton printed with
    --explicitStrategy: its states, and from each of them its edges. *)
Theorem C21_contains : forall alg robotics c A B, wf c ->
  automaton alg robotics false c = Some A -> permAutomaton alg robotics c = Some B ->
  (forall v, In v A -> exists v', In v' B /\ n_vals v' = n_vals v /\ n_rank v' = n_rank v) /\
  (forall v u v', edge A v u -> In v' B -> n_vals v' = n_vals v -> n_rank v' = n_rank v ->
     exists u', edge B v' u' /\ n_vals u' = n_vals u /\ n_rank u' = n_rank u).
Proof.
  intros alg robotics c A B Hwf HA HB.
  destruct (permAutomaton_cases _ _ _ _ Hwf HB) as (w & d & L & keys & out & E & HX & Hw & HL & R & EB & _).
  destruct (explicit_cases alg robotics false c Hwf) as (w' & d' & L' & E' & _ & _ & HL' & keys' & out' & _ & R' & E2).
  rewrite E in E'. injection E' as <- <-.
  assert (EA : A = map fst out').
  { unfold automaton in HA. rewrite E2 in HA.
    destruct robotics; [destruct (checkRealizabilityRobotics c)|destruct (checkRealizability c)]; congruence. }
  assert (ED : forall v u v', edge A v u -> In v' B -> n_vals v' = n_vals v -> n_rank v' = n_rank v ->
     exists u', edge B v' u' /\ n_vals u' = n_vals u /\ n_rank u' = n_rank u).
  { intros v u v' Ed Hv' Ev Er. subst A B.
    destruct (edge_spec c false false _ _ keys' out' R' v u Ed) as [T RK].
    assert (T' : trans (stratT c false (permissive c d) (n_rank v')) (val v') (val u) = true).
    { rewrite Er. unfold val at 1. rewrite Ev. apply (permT_contains c Hwf w d L HL); auto.
      apply (A_shape c false false _ _ keys' out' R'). apply Ed. }
    destruct (edge_total c true false _ _ keys out R v' _ Hv' T') as (u' & Eu & Su).
    exists u'. split; auto.
    assert (EV : n_vals u' = n_vals u).
    { cbn in Su. unfold val in Su.
      assert (L1 : List.length (n_vals u') = nvars c) by (apply (A_shape c true false _ _ keys out R); apply Eu).
      assert (L2 : List.length (n_vals u) = nvars c) by (apply (A_shape c false false _ _ keys' out' R'); apply Ed).
      apply (nth_ext _ _ false false); [congruence|]. intros k Hlt. apply Su. congruence. }
    split; auto. destruct (edge_spec c true false _ _ keys out R v' u' Eu) as [_ ->].
    now rewrite RK, Ev, Er, EV. }
  split; auto. intros v Hv. rewrite EA in Hv.
  pose proof (all_reached c false false _ _ keys' out' R' v Hv) as G. rewrite <- EA in G.
  induction G as [v Hin [G1 G2]|v u G IH Ed].
  - assert (W : pos w (val v) = true) by (eapply extractInit_w; eauto).
    pose proof (r_init _ _ _ _ _ _ _ R _ W) as HK. apply In_nth_error in HK. destruct HK as (i & HK).
    destruct (A_key c true false _ _ keys out R _ _ _ HK) as (v' & _ & Hin' & _ & Er & Ev).
    exists v'. rewrite EB. split; auto. split; [|congruence]. rewrite Ev.
    assert (L2 : List.length (n_vals v) = nvars c) by (apply (A_shape c false false _ _ keys' out' R'); auto).
    assert (L1 : List.length (toVec (nvars c) (val v)) = nvars c) by apply toVec_length.
    apply (same_vec c); auto. intros k Hlt. rewrite (ofVec_toVec (nvars c)) by auto. reflexivity.
  - destruct IH as (v' & Hv' & Ev & Er); [rewrite <- EA; apply Ed|].
    destruct (ED v u v' Ed Hv' Ev Er) as (u' & Eu & E1' & E2'). exists u'. split; auto. apply Eu.
Qed.
Print Assumptions C21_contains.

(** The printed text represents the automaton. *)
Theorem C21_text : forall alg robotics c A, wf c -> permAutomaton alg robotics c = Some A ->
  (forall n a, In n (printedNames c) -> In a (list_ascii_of_string n) -> a <> "010"%char) ->
  exists text, executePermissive alg robotics c = Some (Realizable, text) /\
    permLines (printedNames c) A (file_lines text).
Proof.
  intros alg robotics c A Hwf H HN.
  destruct (permAutomaton_cases _ _ _ _ Hwf H) as (w & d & L & keys & out & E & HX & Hw & HL & R & -> & E2).
  unfold executePermissive. rewrite E2. eexists. split; [reflexivity|]. apply permissive_text.
  apply Forall_forall. intros n Hn a Ha. eauto.
Qed.
Print Assumptions C21_text.

(** ** Examples *)
(** State 0 has two successors for the input a = 0. *)
Example C21_text_example :
  option_map (fun p => file_lines (snd p)) (executePermissive Basic false exR) =
  Some ["State 0 with rank 0"; "a:0, b:0"; "0"; "1"; "3"; "";
     "State 1 with rank 0"; "a:0, b:1"; "0"; "4"; ""; "State 2 with rank 0";
     "a:1, b:0"; "1"; "3"; ""; "State 3 with rank 0"; "a:1, b:1"; "0"; "4";
     ""; "State 4 with rank 1"; "a:0, b:1"; "5"; "4"; "";
     "State 5 with rank 1"; "a:0, b:0"; "0"; "4"; "6"; "";
     "State 6 with rank 1"; "a:1, b:1"; "5"; ""].
Proof. vm_compute. reflexivity. Qed.

(** An infinite path that satisfies all assumptions: it alternates between the
    states 0 and 3. *)
Definition exP : list node :=
  [exNode 0 0 [false; false] [0; 1; 3]; exNode 1 0 [false; true] [0; 4]; exNode 2 0 [true; false] [1; 3];
   exNode 3 0 [true; true] [0; 4]; exNode 4 1 [false; true] [5; 4]; exNode 5 1 [false; false] [0; 4; 6];
   exNode 6 1 [true; true] [5]].
Definition exPPath (n : nat) : node := nth (if Nat.even n then 0 else 3) exP (exNode 0 0 [] []).
Example C21_example : wf exR /\ permAutomaton Basic false exR = Some exP /\ path exP exPPath /\
  forall q, In q (g_liveA (game_of exR)) -> inf_often q (positions exPPath).
Proof.
  assert (E : forall n, exPPath (2 * n) = nth 0 exP (exNode 0 0 [] []) /\
     exPPath (S (2 * n)) = nth 3 exP (exNode 0 0 [] []) /\ exPPath (S (S (2 * n))) = nth 0 exP (exNode 0 0 [] [])).
  { intros n. unfold exPPath. rewrite Nat.even_succ, Nat.even_succ_succ, Nat.even_mul, <- Nat.negb_even, Nat.even_mul. auto. }
  split; [exact exR_wf|]. split; [vm_compute; reflexivity|]. split.
  - intros n. destruct (Nat.even n) eqn:Ev.
    + apply Nat.even_spec in Ev. destruct Ev as (m & ->). destruct (E m) as (-> & -> & _).
      repeat split; cbn; auto.
    + assert (O : Nat.odd n = true) by (rewrite <- Nat.negb_even, Ev; auto).
      apply Nat.odd_spec in O. destruct O as (m & ->). rewrite Nat.add_1_r. destruct (E m) as (_ & -> & ->).
      repeat split; cbn; auto.
  - intros q [<-|[<-|[]]] n.
    + exists (S (2 * n)). split; [lia|]. unfold positions. destruct (E n) as (_ & -> & ->). vm_compute. reflexivity.
    + exists (2 * n). split; [lia|]. unfold positions. destruct (E n) as (-> & -> & _). vm_compute. reflexivity.
Qed.
