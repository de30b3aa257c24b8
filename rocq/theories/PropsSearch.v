(** * Properties of the searches for realizable parameters (C69, C70) *)

From Coq Require Import String Ascii ZArith List Bool Lia.
From Verif Require Import Loop VarTypes Synth Parser FileSpec FileProofs Execute Explicit MinCoreSpec MinCore MinCoreProofs
  SearchSpec Search SearchProofs PropsParser PropsMinCore.
Import ListNotations.
Local Open Scope Z_scope.

(** ** C69: one parameter *)

(** The result is taken from the output of the script iff the script succeeds and there is exactly
    one line with a result. *)
Theorem C69_answer : forall output b, checkRealizability output = Some b <-> answers output b.
Proof. exact check_answers. Qed.
Print Assumptions C69_answer.

Definition rb : list string * Z := (["Solving"; "RESULT: Specification is realizable. "]%string, 0).
Definition ub : list string * Z := (["RESULT: Specification is unrealizable."]%string, 0).
Example C69_answer_example : answers rb true /\ answers ub false /\
  checkRealizability (fst rb ++ fst ub, 0)%list = None /\ checkRealizability (fst rb, 1) = None.
Proof. repeat split; try (apply check_answers; reflexivity). Qed.

(** A search for a monotone specification prints the least realizable value, and the script was
    called last with this value.  It prints that the specification is totally unrealizable iff there
    is no such value.  The number of calls is logarithmic. *)
Theorem C69_monotone : forall script real lo hi, lo <= hi ->
  (forall v, lo <= v <= hi -> answers (script v) (real v)) ->
  (forall v w, lo <= v -> v <= w -> w <= hi -> real v = true -> real w = true) ->
  exists calls r, binarySearch script true lo hi = Some (calls, r) /\
    Z.of_nat (length calls) <= Z.log2 (hi - lo) + 2 /\ (forall v, In v calls -> lo <= v <= hi) /\
    ((exists v, r = Minimum v /\ least real lo hi v /\ last calls (lo - 1) = v) \/
     (r = TotallyUnrealizable /\ forall v, lo <= v <= hi -> real v = false)).
Proof.
  intros script real lo hi LH Ans Mono.
  destruct (binary_spec script true real lo hi LH) as (calls & v & r & E & C1 & C2 & [(R & -> & P)|(R & -> & ->)]).
  { intros v Hv. now apply check_answers, Ans. }
  - eexists. eexists. split; [exact E|]. split; [pose proof (Z.log2_nonneg (hi - lo)); lia|]. split; [exact C2|]. left.
    exists v. assert (Hv : lo <= v <= hi) by (apply C2; apply in_app_iff; right; now left).
    split; [reflexivity|]. split; [|now rewrite last_last]. split; [exact Hv|]. split; [exact R|].
    intros w Hw Rw. destruct (Z_le_gt_dec v w) as [|G]; auto. destruct P as [->|P]; [lia|].
    assert (X : real (v - 1) = true) by (apply (Mono w); auto; lia). congruence.
  - eexists. eexists. split; [exact E|]. split; [pose proof (Z.log2_nonneg (hi - lo)); lia|]. split; [exact C2|]. right.
    split; [reflexivity|]. intros v Hv. destruct (real v) eqn:Rv; auto. rewrite (Mono v hi) in R; auto; lia.
Qed.
Print Assumptions C69_monotone.

(** The greatest value for an antitone specification. *)
Theorem C69_antitone : forall script real lo hi, lo <= hi ->
  (forall v, lo <= v <= hi -> answers (script v) (real v)) ->
  (forall v w, lo <= v -> v <= w -> w <= hi -> real w = true -> real v = true) ->
  exists calls r, binarySearch script false lo hi = Some (calls, r) /\
    Z.of_nat (length calls) <= Z.log2 (hi - lo) + 2 /\ (forall v, In v calls -> lo <= v <= hi) /\
    ((exists v, r = Maximum v /\ greatest real lo hi v /\ last calls (lo - 1) = v) \/
     (r = TotallyUnrealizable /\ forall v, lo <= v <= hi -> real v = false)).
Proof.
  intros script real lo hi LH Ans Mono.
  destruct (binary_spec script false real lo hi LH) as (calls & v & r & E & C1 & C2 & [(R & -> & P)|(R & -> & ->)]).
  { intros v Hv. now apply check_answers, Ans. }
  - eexists. eexists. split; [exact E|]. split; [pose proof (Z.log2_nonneg (hi - lo)); lia|]. split; [exact C2|]. left.
    exists v. assert (Hv : lo <= v <= hi) by (apply C2; apply in_app_iff; right; now left).
    split; [reflexivity|]. split; [|now rewrite last_last]. split; [exact Hv|]. split; [exact R|].
    intros w Hw Rw. destruct (Z_le_gt_dec w v) as [|G]; auto. destruct P as [->|P]; [lia|].
    assert (X : real (v + 1) = true) by (apply (Mono (v + 1) w); auto; lia). congruence.
  - eexists. eexists. split; [exact E|]. split; [pose proof (Z.log2_nonneg (hi - lo)); lia|]. split; [exact C2|]. right.
    split; [reflexivity|]. intros v Hv. destruct (real v) eqn:Rv; auto. rewrite (Mono lo v) in R; auto; lia.
Qed.
Print Assumptions C69_antitone.

Definition exScript (v : Z) : list string * Z := if 37 <=? v then rb else ub.
Example C69_example :
  binarySearch exScript true (-5) 100 = Some ([47; 21; 34; 41; 38; 36; 37; 37], Minimum 37) /\
  binarySearch (fun v => exScript (- v)) false (-50) 20 = Some ([-15; -33; -42; -38; -36; -37; -37], Maximum (-37)) /\
  binarySearch exScript true 0 20 = Some ([10; 15; 18; 19; 20], TotallyUnrealizable) /\
  (forall v, answers (exScript v) (37 <=? v)).
Proof.
  split; [vm_compute; reflexivity|]. split; [vm_compute; reflexivity|]. split; [vm_compute; reflexivity|].
  intros v. apply check_answers. unfold exScript. destruct (37 <=? v); reflexivity.
Qed.

(** Even if the specification is not monotone, a reported minimum is realizable and cannot be
    decreased by one. *)
Theorem C69_local : forall script real lo hi, lo <= hi ->
  (forall v, lo <= v <= hi -> answers (script v) (real v)) ->
  (exists calls r, binarySearch script true lo hi = Some (calls, r) /\
     ((exists v, r = Minimum v /\ lo <= v <= hi /\ real v = true /\ (v = lo \/ real (v - 1) = false)) \/
      (r = TotallyUnrealizable /\ real hi = false))) /\
  (exists calls r, binarySearch script false lo hi = Some (calls, r) /\
     ((exists v, r = Maximum v /\ lo <= v <= hi /\ real v = true /\ (v = hi \/ real (v + 1) = false)) \/
      (r = TotallyUnrealizable /\ real lo = false))).
Proof.
  intros script real lo hi LH Ans.
  assert (Ans' : forall v, lo <= v <= hi -> checkRealizability (script v) = Some (real v)) by (intros v Hv; now apply check_answers, Ans).
  split; [destruct (binary_spec script true real lo hi LH Ans') as (calls & v & r & E & C1 & C2 & C3)
         |destruct (binary_spec script false real lo hi LH Ans') as (calls & v & r & E & C1 & C2 & C3)];
    (eexists; eexists; split; [exact E|]);
    assert (Hv : lo <= v <= hi) by (apply C2; apply in_app_iff; right; now left);
    destruct C3 as [(R & -> & P)|(R & -> & ->)]; [left|right|left|right]; auto; exists v; auto.
Qed.
Print Assumptions C69_local.

(** If the script calls slugs for files that demand less and less, then the search prints the least
    value whose file is realizable. *)
Definition slugsScript (ord : nat -> bool) (content : Z -> string) (v : Z) : list string * Z :=
  match verdictOfFile ord (content v) with
  | Some true => (["RESULT: Specification is realizable."%string], 0)
  | Some false => (["RESULT: Specification is unrealizable."%string], 0)
  | None => ([], 1)
  end.

Theorem C69_files : forall ord content L lo hi, lo <= hi ->
  (forall v, lo <= v <= hi -> (exists c, initContext ord (content v) = POk c) /\
     layout None (file_lines (content v)) = Some (L v) /\ plain_file (L v)) ->
  (forall v, lo <= v < hi -> demands_less (L v) (L (v + 1))) ->
  exists calls r, binarySearch (slugsScript ord content) true lo hi = Some (calls, r) /\
    ((exists v, r = Minimum v /\ lo <= v <= hi /\ (forall w, v <= w <= hi -> file_realizable (L w)) /\
        forall w, lo <= w < v -> file_unrealizable (L w)) \/
     (r = TotallyUnrealizable /\ forall v, lo <= v <= hi -> file_unrealizable (L v))).
Proof.
  intros ord content L lo hi LH Acc Less.
  set (real := fun v => match verdictOfFile ord (content v) with Some b => b | None => false end).
  assert (V : forall v, lo <= v <= hi -> (verdictOfFile ord (content v) = Some true /\ file_realizable (L v)) \/
                                      (verdictOfFile ord (content v) = Some false /\ file_unrealizable (L v))).
  { intros v Hv. destruct (Acc v Hv) as ((c & Ec) & El & PF).
    destruct (C41_accepted_file ord (content v) c _ Ec El PF) as (fs & F & [[Ev R]|[Ev U]]);
      unfold verdictOfFile; rewrite Ev; [left|right]; split; auto; exists fs; auto. }
  assert (Step : forall v, lo <= v < hi -> real v = true -> real (v + 1) = true).
  { intros v Hv R. destruct (Acc v) as ((c & Ec) & El & PF); [lia|]. destruct (Acc (v + 1)) as ((c' & Ec') & El' & PF'); [lia|].
    destruct (C67_monotone _ _ _ _ _ _ _ _ Ec El PF Ec' El' PF' (Less v Hv)) as [M _].
    destruct (V v) as [[E _]|[E _]]; [lia| |unfold real in R; rewrite E in R; discriminate].
    unfold real, verdictOfFile. rewrite M; auto. unfold verdictOfFile in E.
    destruct (executeFile ord (content v)) as [[]|e| |]; try discriminate; auto. }
  assert (Mono : forall v w, lo <= v -> v <= w -> w <= hi -> real v = true -> real w = true).
  { intros v w H1 H2 H3 R. replace w with (v + Z.of_nat (Z.to_nat (w - v))) in H3 |- * by lia.
    induction (Z.to_nat (w - v)) as [|k IH]; [now rewrite Z.add_0_r|].
    replace (v + Z.of_nat (S k)) with (v + Z.of_nat k + 1) in * by lia. apply Step; [lia|]. apply IH. lia. }
  assert (Ans : forall v, lo <= v <= hi -> answers (slugsScript ord content v) (real v)).
  { intros v Hv. apply check_answers. unfold slugsScript, real. destruct (V v Hv) as [[-> _]|[-> _]]; reflexivity. }
  destruct (C69_monotone _ real lo hi LH Ans Mono) as (calls & r & E & _ & _ & [(v & -> & (H1 & H2 & H3) & _)|[-> H]]);
    exists calls; eexists; (split; [exact E|]); [left|right].
  - exists v. split; auto. split; auto. split.
    + intros w Hw. destruct (V w) as [[_ X]|[X _]]; [lia|exact X|]. assert (Y : real w = true) by (apply (Mono v); auto; lia).
      unfold real in Y. rewrite X in Y. discriminate.
    + intros w Hw. destruct (V w) as [[X _]|[_ X]]; [lia| |exact X]. assert (Y : v <= w); [|lia]. apply H3; [lia|].
      unfold real. now rewrite X.
  - split; auto. intros v Hv. destruct (V v Hv) as [[X _]|[_ X]]; auto. specialize (H v Hv). unfold real in H. rewrite X in H. discriminate.
Qed.
Print Assumptions C69_files.

(** Files with fewer and fewer guarantees. *)
Definition exFamily (v : Z) : string :=
  ("[OUTPUT]" ++ nl ++ "b" ++ nl ++ "[SYS_INIT]" ++ nl ++ (if (v <=? 2)%Z then "b" ++ nl else "") ++ (if (v <=? 5)%Z then "! b" ++ nl else ""))%string.
Definition exItems (v : Z) : items :=
  (SOutput, "b"%string) :: (if v <=? 2 then [(SSysInit, "b"%string)] else []) ++ (if v <=? 5 then [(SSysInit, "! b"%string)] else []).
Example C69_files_example :
  (forall v, 0 <= v <= 9 -> (exists c, initContext exOrd (exFamily v) = POk c) /\
     layout None (file_lines (exFamily v)) = Some (exItems v) /\ plain_file (exItems v)) /\
  (forall v, 0 <= v < 9 -> demands_less (exItems v) (exItems (v + 1))) /\
  binarySearch (slugsScript exOrd exFamily) true 0 9 = Some ([4; 2; 3; 3], Minimum 3).
Proof.
  split; [|split; [|vm_compute; reflexivity]].
  - intros v Hv. unfold exFamily, exItems. destruct (v <=? 2), (v <=? 5);
      (match goal with |- (exists c, initContext _ ?t = _) /\ _ =>
         destruct (initContext exOrd t) as [c|e| |] eqn:E; try (vm_compute in E; discriminate) end;
       (split; [exists c; reflexivity|]); clear E; (split; [vm_compute; reflexivity|]); apply plain_items; vm_compute; reflexivity).
  - intros v Hv. unfold exItems. destruct (Z.leb_spec (v + 1) 2), (Z.leb_spec v 2), (Z.leb_spec (v + 1) 5), (Z.leb_spec v 5); try lia;
      (split; [|split]); intros s line Hs; cbn [In app]; intuition (try discriminate);
      match goal with H : (_, _) = (_, _) |- _ => injection H as <- <-; discriminate Hs end.
Qed.

(** The bounds are not checked: if the minimum is greater than the maximum, the maximum itself is
    reported although it is outside the range. *)
Theorem C69_bounds_refuted : exists script lo hi v calls,
  (forall w, answers (script w) true) /\ binarySearch script true lo hi = Some (calls, Minimum v) /\ ~ lo <= v <= hi.
Proof.
  exists (fun _ => rb), 7, 3, 3, [3]. split; [intros w; apply check_answers; reflexivity|].
  split; [vm_compute; reflexivity|lia].
Qed.
Print Assumptions C69_bounds_refuted.

(** ** C70: several parameters *)

(** The search terminates and returns precisely the realizable tuples that are minimal, each of them
    once; all realizable tuples are at least as easy as one of them.  The script is called at most
    once for each tuple, and only for tuples in the given ranges. *)
Theorem C70_front : forall script ps real,
  Forall (fun p => 0 <= fst (fst p) /\ 0 <= snd (fst p)) ps ->
  (forall t, in_box ps t -> answers (script t) (real t)) ->
  (forall t u, in_box ps t -> in_box ps u -> easier ps t u -> real t = true -> real u = true) ->
  (exists n r, runSearch script ps n = Some r) /\
  forall n calls front, runSearch script ps n = Some (calls, front) ->
    NoDup front /\ (forall t, In t front <-> pareto ps real t) /\
    (forall t, in_box ps t -> real t = true -> exists u, In u front /\ easier ps u t) /\
    NoDup calls /\ (forall t, In t calls -> in_box ps t).
Proof.
  intros script ps real NN Ans Mono. unfold runSearch. rewrite normalize_spec by exact NN.
  set (types := map typeOf ps). set (R := fun t => real (translate ps t)).
  assert (Len : forall t, inN types t -> length t = length ps) by (intros t Ht; now apply box_translate in Ht).
  assert (Ans' : forall t, inN types t -> checkRealizability (script (translate ps t)) = Some (R t)).
  { intros t Ht. apply check_answers, Ans. now apply box_translate. }
  assert (Inj : forall t u, inN types t -> inN types u -> translate ps t = translate ps u -> t = u).
  { intros t u Ht Hu E. rewrite <- (translate_twice ps t), <- (translate_twice ps u) by auto. now rewrite E. }
  split; [apply (multi_total script ps types R Ans' Inj)|].
  intros n calls front E. destruct (multi_result script ps types R Ans' Inj n calls front E) as (neg & pos & I & -> & Cov).
  destruct I as (I1 & I2 & I3 & I4 & I5 & I6 & I7).
  assert (MonoN : forall t u, inN types t -> inN types u -> leT t u -> R t = true -> R u = true).
  { intros t u Ht Hu LE. apply Mono; [now apply box_translate|now apply box_translate|]. now apply easier_translate; auto. }
  assert (Dom : forall t, inN types t -> R t = true -> exists u, In u pos /\ leT u t).
  { intros t Ht Rt. specialize (Cov t Ht). apply (cov_spec types neg pos t Ht I1) in Cov. destruct Cov as [(u & Hu & LE)|C]; auto.
    specialize (I2 u Hu). rewrite (MonoN t u) in I2; auto. discriminate. }
  split; [|split; [|split; [|split; [exact I6|]]]].
  - assert (G : forall l, (forall u, In u l -> inN types u) -> NoDup l -> NoDup (map (translate ps) l)).
    { induction l as [|a l IH]; cbn; intros Hl N; constructor; inversion N; subst; auto.
      intros X. apply in_map_iff in X. destruct X as (b & Eb & Hb). apply Inj in Eb; auto. congruence. }
    apply G; auto.
  - intros t. rewrite in_map_iff. split.
    + intros (u & <- & Hu). assert (Hu' : inN types u) by auto. split; [now apply box_translate|]. split; [now apply I3|].
      intros w Hw Rw Ew. pose proof (inN_of_box ps w Hw) as Nw. fold types in Nw. set (x := translate ps w) in *.
      assert (Ew2 : translate ps x = w) by (apply translate_twice; now apply box_length).
      rewrite <- Ew2 in Ew, Rw |- *. apply easier_translate in Ew; auto. fold (R x) in Rw.
      destruct (Dom x Nw Rw) as (y & Hy & LE). assert (y = u) by (apply I4; auto; eapply leT_trans; eauto). subst y.
      f_equal. now apply leT_antisym.
    + intros (H1 & H2 & H3). pose proof (inN_of_box ps t H1) as Nt. fold types in Nt. set (x := translate ps t) in *.
      assert (Et : translate ps x = t) by (apply translate_twice; now apply box_length).
      rewrite <- Et in H2. fold (R x) in H2. destruct (Dom x Nt H2) as (y & Hy & LE). exists y. split; [|exact Hy].
      apply H3; [apply box_translate; fold types; auto|now apply I3|]. rewrite <- Et. apply easier_translate; auto.
  - intros t Ht Rt. pose proof (inN_of_box ps t Ht) as Nt. fold types in Nt. set (x := translate ps t) in *.
    assert (Et : translate ps x = t) by (apply translate_twice; now apply box_length).
    rewrite <- Et in Rt. fold (R x) in Rt. destruct (Dom x Nt Rt) as (y & Hy & LE). exists (translate ps y).
    split; [now apply in_map|]. rewrite <- Et. apply easier_translate; auto.
  - intros q Hq. destruct (I7 q Hq) as (t & Ht & -> & _). now apply box_translate.
Qed.
Print Assumptions C70_front.

(** Two parameters of which the first one makes the specification easier and the second one harder. *)
Definition exScript2 (t : list Z) : list string * Z :=
  match t with [a; b] => if b * b <=? a then rb else ub | _ => ([], 1) end.
Example C70_example :
  (forall t, in_box [(0, 9, true); (1, 4, false)] t -> answers (exScript2 t) (match t with [a; b] => b * b <=? a | _ => false end)) /\
  (forall t u, in_box [(0, 9, true); (1, 4, false)] t -> in_box [(0, 9, true); (1, 4, false)] u -> easier [(0, 9, true); (1, 4, false)] t u ->
     match t with [a; b] => b * b <=? a | _ => false end = true -> match u with [a; b] => b * b <=? a | _ => false end = true) /\
  option_map snd (runSearch exScript2 [(0, 9, true); (1, 4, false)] 6) = Some [[4; 2]; [9; 3]; [1; 1]].
Proof.
  split; [|split].
  - intros t H. inversion H as [|? a ? t1 H1 H2]; subst. inversion H2 as [|? b ? t2 H3 H4]; subst. inversion H4; subst.
    apply check_answers. cbn [exScript2]. destruct (b * b <=? a); reflexivity.
  - intros t u H H' HE. inversion H as [|? a ? t1 H1 H2]; subst. inversion H2 as [|? b ? t2 H3 H4]; subst. inversion H4; subst.
    inversion H' as [|? a' ? t1' H1' H2']; subst. inversion H2' as [|? b' ? t2' H3' H4']; subst. inversion H4'; subst.
    inversion HE as [|? ? ? ? ? ? E1 E2]; subst. inversion E2 as [|? ? ? ? ? ? E3 E4]; subst. cbn [fst snd] in *.
    rewrite !Z.leb_le. nia.
  - vm_compute. reflexivity.
Qed.

(** If the script fails for the tuple that is tested, then the same tuple is tested forever: for a
    script that always fails and ranges that are not empty, the search never ends. *)
Theorem C70_failing_script : forall script ps t,
  Forall (fun p => 0 <= fst (fst p) /\ 0 <= snd (fst p)) ps -> in_box ps t ->
  (forall u b, ~ answers (script u) b) ->
  forall n, runSearch script ps n = None.
Proof.
  intros script ps t NN Ht NA n. unfold runSearch. rewrite normalize_spec by exact NN.
  pose proof (inN_of_box ps t Ht) as Nt. set (types := map typeOf ps) in *.
  destruct (run (multiBody script ps types) n ([], [], [])) as [r|] eqn:E; auto. exfalso.
  apply run_Runs in E.
  assert (B : forall calls, exists calls', multiBody script ps types ([], [], calls) = Cont ([], [], calls')).
  { intros calls. unfold multiBody. pose proof (best_spec types [] []) as B. destruct (findBest types [] []) as [[u v]|].
    - destruct (checkRealizability (script (translate ps u))) as [b|] eqn:C; [|eauto]. apply check_answers in C. now apply NA in C.
    - specialize (B _ Nt). discriminate. }
  apply (Runs_inv (multiBody script ps types) (fun s => exists calls, s = ([], [], calls)) (fun _ => False) _ r E); [eauto|..].
  - intros s s' (calls & ->) Eb. destruct (B calls) as (calls' & B'). rewrite B' in Eb. injection Eb as <-. eauto.
  - intros s r' (calls & ->) Eb. destruct (B calls) as (calls' & B'). rewrite B' in Eb. discriminate.
Qed.
Print Assumptions C70_failing_script.

Example C70_failing_example : in_box [(0, 9, true)] [3] /\ forall b, ~ answers ([], 1) b.
Proof. split; [repeat constructor; cbn; lia|]. intros b [H _]. discriminate. Qed.
