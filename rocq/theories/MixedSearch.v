(** * Proofs: resilience with levels is antitone, and the search over the levels *)

From Coq Require Import String Ascii List Bool Arith NArith ZArith Lia.
From Verif Require Import Synth FormulaSpec Parser Spec FileSpec Execute ParserProofs FileProofs Structured StructuredProofs StructFile StructFileProofs MinCoreProofs
  ResilientSpec Resilient FrontierProofs ResilientProofs MixedSpec Mixed MixedProofs.
Import ListNotations.
Local Open Scope list_scope.

(** ** Levels *)
Lemma withLevels_le {A} : forall marks lv lv' (fl : list A), levelsBelow lv lv' ->
  Forall2 (fun p q => fst p = fst q /\ snd p <= snd q) (withLevels marks lv fl) (withLevels marks lv' fl).
Proof.
  induction marks as [|[] marks IH]; intros lv lv' [|f fl] B; cbn [withLevels]; try constructor; cbn [fst snd]; auto.
  - destruct B; cbn [hd]; auto.
  - apply IH. destruct B; cbn [tl]; [constructor|assumption].
Qed.
Lemma choose_levels {A} : forall marks lv (fl : list A), choose marks (violable lv) fl = map (fun p => (fst p, negb (snd p =? 0)%nat)) (withLevels marks lv fl).
Proof.
  induction marks as [|[] marks IH]; intros lv [|f fl]; cbn [choose withLevels map fst snd]; auto.
  - now rewrite IH.
  - destruct lv as [|v lv]; cbn [violable map hd tl]; [change (@nil bool) with (violable []); now rewrite IH|]. f_equal. apply IH.
Qed.

(** ** A strategy for higher levels and a greater bound is a strategy for lower ones *)
Section ANTITONE.
  Variable G : game.
  Variables asm asm' : list ((state -> state -> bool) * nat).
  Variables k k' : nat.
  Hypothesis LE : Forall2 (fun p q => fst p = fst q /\ snd p <= snd q) asm asm'.
  Hypothesis KE : k <= k'.
  Lemma viol_mono s t : (forall a, In a asm -> snd a = 0 -> fst a s t = true) -> violations asm' s t <= violations asm s t.
  Proof.
    unfold violations. clear KE. induction LE as [|p q l l' [E1 E2] F IH]; intros Z; cbn [filter]; [lia|].
    assert (IH' : length (filter (fun a => (snd a =? 1)%nat && negb (fst a s t)) l') <= length (filter (fun a => (snd a =? 1)%nat && negb (fst a s t)) l)).
    { apply IH; auto. intros a Ha. apply Z. now right. }
    rewrite <- E1. destruct (Nat.eqb_spec (snd q) 1) as [Q|Q]; cbn [andb].
    - destruct (fst p s t) eqn:T; cbn [negb]; rewrite ?andb_false_r; [exact IH'|].
      assert (snd p = 1). { destruct (snd p) as [|[|v]] eqn:S; [|reflexivity|lia]. rewrite Z in T; [discriminate T|now left|exact S]. }
      rewrite H. cbn [Nat.eqb andb negb length]. lia.
    - destruct ((snd p =? 1)%nat && negb (fst p s t)); cbn [length]; lia.
  Qed.
  Lemma F2_left {A B} (R : A -> B -> Prop) l l' b : Forall2 R l l' -> In b l' -> exists a, In a l /\ R a b.
  Proof. induction 1 as [|x y l l' H F IH]; intros []; subst; [exists x; cbn; auto|]. destruct IH as (a & ? & ?); auto. exists a; cbn; auto. Qed.
  Lemma stepE_mono p q : stepE asm k p q -> stepE asm' k' p q.
  Proof.
    intros [Z C]. split.
    - intros a Ha Sa. destruct (F2_left _ _ _ a LE Ha) as (b & Hb & E1 & E2). rewrite <- E1. apply Z; auto. lia.
    - pose proof (viol_mono (fst p) (fst q) Z). lia.
  Qed.
  Lemma disturbed_mono p q : stepE asm k p q -> disturbed asm' (fst p) (fst q) -> disturbed asm (fst p) (fst q).
  Proof.
    intros [Z _] (a & Ha & Na & F). destruct (F2_left _ _ _ a LE Ha) as (b & Hb & E1 & E2). rewrite <- E1 in F. exists b. split; [exact Hb|]. split; [|exact F].
    intros S. rewrite Z in F; auto. discriminate F.
  Qed.
  Lemma mixed_mono : mixedRealizable G asm' k' -> mixedRealizable G asm k.
  Proof.
    intros (f & W). exists f. intros x I. destruct (W x I) as (I' & S & Lv). split; [exact I'|]. split.
    - intros n A. destruct (S n (fun m Hm => stepE_mono _ _ (A m Hm))) as [S1 S2]. split; [exact S1|].
      pose proof (viol_mono _ _ (proj1 (A n (le_n n)))). lia.
    - intros A As. destruct (Lv (fun n => stepE_mono _ _ (A n)) As) as (G1 & G2). split.
      + intros goal Hg n. destruct (G1 goal Hg n) as (m & Hm & [D|D]); exists m; (split; [exact Hm|]); [left|now right]. now apply disturbed_mono.
      + intros n. destruct (G2 n) as (m & Hm & [D|D]); exists m; (split; [exact Hm|]); [left|now right]. now apply disturbed_mono.
  Qed.
End ANTITONE.
Definition asmOf (fs : section -> list fml) (marks : list bool) (lv : list nat) : list ((state -> state -> bool) * nat) :=
  map (fun p => (fun st st' => holds (fst p) (valuation st st'), snd p)) (withLevels marks lv (fs SEnvTrans)).
Lemma asm_le fs marks lv lv' : levelsBelow lv lv' -> Forall2 (fun p q => fst p = fst q /\ snd p <= snd q) (asmOf fs marks lv) (asmOf fs marks lv').
Proof.
  intros B. unfold asmOf. pose proof (withLevels_le marks lv lv' (fs SEnvTrans) B) as H. induction H as [|p q l l' [E1 E2] F IH]; cbn [map]; constructor; auto.
  cbn [fst snd]. now rewrite E1.
Qed.
Lemma levels_antitone L fs marks lv lv' k k' : levelsBelow lv lv' -> k <= k' -> resilient L fs marks lv' k' -> resilient L fs marks lv k.
Proof. intros B K. apply mixed_mono; auto. apply (asm_le fs marks lv lv' B). Qed.

(** ** Without a limit *)
Section UNLIMITED.
  Variables (L : items) (fs : section -> list fml) (marks : list bool) (lv : list nat) (k : nat).
  Let G := file_game L fs.
  Let R := resilientGame L fs marks (violable lv).
  Let asm := asmOf fs marks lv.
  Lemma unl_safe s t : g_safeE R s t = true <-> forall a, In a asm -> snd a = 0 -> fst a s t = true.
  Proof.
    unfold R, resilientGame. cbn [g_safeE]. rewrite choose_levels, forallb_forall. unfold asm, asmOf. split.
    - intros H a Ha S. apply in_map_iff in Ha. destruct Ha as (p & <- & Hp). cbn [fst snd] in *. specialize (H _ (in_map _ _ _ Hp)). cbn [fst snd] in H. rewrite S in H. exact H.
    - intros H a Ha. apply in_map_iff in Ha. destruct Ha as (p & <- & Hp). cbn [fst snd]. destruct (snd p) eqn:S; [|reflexivity]. cbn [Nat.eqb negb orb].
      apply (H (fun st st' => holds (fst p) (valuation st st'), snd p)); [|exact S]. apply in_map_iff. exists p. auto.
  Qed.
  Lemma unl_dist s t : existsb (fun p => snd p && negb (holds (fst p) (valuation s t))) (choose marks (violable lv) (fs SEnvTrans)) = true <-> disturbed asm s t.
  Proof.
    rewrite choose_levels, existsb_exists. unfold disturbed, asm, asmOf. split.
    - intros (a & Ha & T). apply in_map_iff in Ha. destruct Ha as (p & <- & Hp). cbn [fst snd] in T. apply andb_true_iff in T. destruct T as [T1 T2]. apply negb_true_iff in T1, T2. apply Nat.eqb_neq in T1.
      eexists. split; [apply in_map; exact Hp|]. cbn [fst snd]. auto.
    - intros (a & Ha & N & T). apply in_map_iff in Ha. destruct Ha as (p & <- & Hp). cbn [fst snd] in *. eexists. split; [apply in_map; exact Hp|]. cbn [fst snd].
      rewrite T. apply Nat.eqb_neq in N. now rewrite N.
  Qed.
  Lemma hist_fst f x n : map fst (countedHistory G (fun h y => (f (map fst h) y, 0)) x n) = history R f x n.
  Proof. induction n as [|n IH]; cbn [countedHistory history map fst snd]; [reflexivity|]. now rewrite IH. Qed.
  Lemma play_fst f x n : countedPlay G (fun h y => (f (map fst h) y, 0)) x n = (play R f x n, 0).
  Proof.
    unfold countedPlay, play. rewrite <- hist_fst. destruct n as [|n]; reflexivity.
  Qed.
  Lemma unlimited_resilient : realizable R -> resilient L fs marks lv k.
  Proof.
    intros (f & W). exists (fun h y => (f (map fst h) y, 0)). fold G. intros x I. rewrite play_fst in I. cbn [fst] in I. destruct (W x I) as (I' & S & Lv).
    split; [rewrite play_fst; auto|].
    assert (SE : forall n, stepE (asmOf fs marks lv) k (countedPlay G (fun h y => (f (map fst h) y, 0)) x n) (countedPlay G (fun h y => (f (map fst h) y, 0)) x (Datatypes.S n)) -> g_safeE R (play R f x n) (play R f x (Datatypes.S n)) = true).
    { intros n [H _]. apply unl_safe. intros a Ha Sa. specialize (H a Ha Sa). rewrite !play_fst in H. exact H. }
    split.
    - intros n A. split; rewrite !play_fst; cbn [fst snd]; [|lia]. apply (S n). intros m Hm. apply SE. now apply A.
    - intros A As. assert (Gl : forall goal, In goal (g_liveG R) -> inf_often goal (play R f x)).
      { apply Lv; [intros n; apply SE; apply A|]. intros a Ha n. destruct (As a Ha n) as (m & Hm & D). exists m. split; auto. rewrite !play_fst in D. cbn [fst snd] in D. destruct D as [D|D]; [now elim D|exact D]. }
      split.
      + intros goal Hg n. destruct (Gl (fun st st' => goal st st' || existsb (fun p => snd p && negb (holds (fst p) (valuation st st'))) (choose marks (violable lv) (fs SEnvTrans)))) with (n := n) as (m & Hm & T).
        { unfold R, resilientGame. cbn [g_liveG]. apply in_map_iff. exists goal. auto. }
        exists m. split; auto. rewrite !play_fst. cbn [fst snd]. apply orb_true_iff in T. destruct T as [T|T]; [now right|left; now apply unl_dist].
      + intros n. exists n. split; [lia|]. right. now rewrite play_fst.
  Qed.
End UNLIMITED.

(** ** The lattice *)
Lemma levelsEq_spec : forall x y, levelsEq x y = true <-> x = y.
Proof.
  induction x as [|a x IH]; intros [|b y]; cbn [levelsEq]; split; try congruence; try discriminate.
  - intros H. apply andb_true_iff in H. destruct H as [H1 H2]. apply Nat.eqb_eq in H1. apply IH in H2. congruence.
  - intros E. injection E as -> ->. rewrite Nat.eqb_refl. now apply IH.
Qed.
Lemma mixedEq_spec x y : mixedEq x y = true <-> x = y.
Proof.
  unfold mixedEq. rewrite andb_true_iff, levelsEq_spec, Nat.eqb_eq. destruct x, y; cbn [fst snd]. split; [intros [-> ->]; reflexivity|intros E; injection E as -> ->; auto].
Qed.
Lemma levelsLeq_spec : forall x y, length x = length y -> (levelsLeq x y = true <-> levelsBelow x y).
Proof.
  unfold levelsBelow. induction x as [|a x IH]; intros [|b y] E; try discriminate E; cbn [levelsLeq].
  - split; [constructor|reflexivity].
  - injection E as E. rewrite andb_true_iff, Nat.leb_le, (IH y E). split; [intros [H1 H2]; now constructor|intros H; inversion H; auto].
Qed.
Lemma levelsLeq_refl : forall x, levelsLeq x x = true.
Proof. induction x as [|a x IH]; cbn [levelsLeq]; [reflexivity|]. now rewrite Nat.leb_refl, IH. Qed.
Lemma levelsLeq_trans : forall x y z, levelsLeq x y = true -> levelsLeq y z = true -> levelsLeq x z = true.
Proof.
  induction x as [|a x IH]; intros [|b y] [|c z]; cbn [levelsLeq]; auto; try discriminate. rewrite !andb_true_iff, !Nat.leb_le. intros [H1 H2] [H3 H4]. split; [lia|]. eauto.
Qed.
Lemma succ_levels : forall x a, In a (levelSuccessors x) -> length a = length x /\ levelsBelow x a /\ levelsLeq a x = false /\ (Forall (fun v => v <= 2) x -> Forall (fun v => v <= 2) a).
Proof.
  assert (RF : forall x, levelsBelow x x) by (unfold levelsBelow; induction x; constructor; auto).
  induction x as [|v x IH]; intros a Ha; cbn [levelSuccessors] in Ha; [destruct Ha|]. apply in_app_or in Ha. destruct Ha as [Ha|Ha].
  - destruct (Nat.ltb_spec v 2) as [H|H]; [|destruct Ha]. destruct Ha as [<-|[]]. cbn [length levelsLeq]. split; [reflexivity|]. split; [constructor; [lia|apply RF]|]. split.
    + replace (S v <=? v)%nat with false by (symmetry; apply Nat.leb_gt; lia). reflexivity.
    + intros F. inversion F; subst. constructor; [lia|auto].
  - apply in_map_iff in Ha. destruct Ha as (b & <- & Hb). destruct (IH b Hb) as (E1 & E2 & E3 & E4). cbn [length levelsLeq]. split; [congruence|]. split; [constructor; auto|]. split; [rewrite E3; apply andb_false_r|].
    intros F. inversion F; subst. constructor; auto.
Qed.
Lemma succ_levels_between : forall x y, levelsBelow x y -> Forall (fun v => v <= 2) y -> x <> y -> exists a, In a (levelSuccessors x) /\ levelsBelow a y.
Proof.
  unfold levelsBelow. induction 1 as [|v w x y H F IH]; intros B N; [now elim N|]. inversion B as [|? ? B1 B2]; subst. cbn [levelSuccessors]. destruct (Nat.eq_dec v w) as [E|E].
  - subst w. destruct IH as (a & Ha & Fa); auto. { intros E. apply N. now subst. }
    exists (v :: a). split; [apply in_or_app; right; now apply in_map|now constructor].
  - exists (S v :: x). split; [apply in_or_app; left; destruct (Nat.ltb_spec v 2); [now left|lia]|constructor; [lia|exact F]].
Qed.
Lemma isLeqRef_spec : forall x r, length x = length r -> (isLeqRef x r = true <-> below (violable x) r).
Proof.
  unfold below, violable. induction x as [|a x IH]; intros [|b r] E; try discriminate E; cbn [isLeqRef map].
  - split; [constructor|reflexivity].
  - injection E as E. rewrite andb_true_iff, (IH r E). split.
    + intros [H1 H2]. constructor; auto. intros H. apply negb_true_iff in H. now rewrite H in H1.
    + intros H. inversion H; subst. split; auto. destruct (a =? 0)%nat; auto.
Qed.
Lemma isLess_not : forall x r, isLessRef x r = true -> isLeqRef x r = false.
Proof.
  induction x as [|a x IH]; intros [|b r]; cbn [isLessRef isLeqRef]; try discriminate. intros H. apply orb_true_iff in H. destruct H as [H|H].
  - apply andb_true_iff in H. destruct H as [H1 H2]. apply Nat.ltb_lt in H1. apply negb_true_iff in H2. subst b. destruct a; [lia|reflexivity].
  - rewrite (IH r H). apply andb_false_r.
Qed.
Lemma isLeqRef_mono : forall x y r, levelsBelow x y -> isLeqRef y r = true -> isLeqRef x r = true.
Proof.
  unfold levelsBelow. intros x y r H. revert r. induction H as [|a b x y H F IH]; intros [|c r]; cbn [isLeqRef]; auto. rewrite !andb_true_iff. intros [H1 H2]. split; auto.
  apply orb_true_iff in H1. destruct H1 as [H1|H1]; [|rewrite H1; apply orb_true_r]. apply Nat.eqb_eq in H1. subst b. replace a with 0 by lia. reflexivity.
Qed.
Lemma violable_two c : violable (map (fun a : bool => if a then 2 else 0) c) = c.
Proof. unfold violable. rewrite map_map. induction c as [|[] c IH]; [reflexivity|..]; cbn [map Nat.eqb negb]; now rewrite IH. Qed.

(** ** The search *)
Section SEARCH.
  Variable ord : nat -> bool.
  Variable nofCounterBits : nat -> nat.
  Hypothesis bits : forall k, k < 2 ^ nofCounterBits k.
  Variables (L : items) (fs : section -> list fml) (marks : list bool) (d : lineDict).
  Hypothesis Ltidy : Forall (fun p => tidy (snd p) /\ content (snd p) = true) L.
  Hypothesis Hd : forall s, d (header s) = added marks L s.
  Hypothesis ND : NoDup (declared L).
  Hypothesis Fresh : forall w, In w (declared L) -> String.prefix "_ResilienceCounter_" w = false.
  Hypothesis HF : formulas_of false (inputsFirst L) fs.
  Hypothesis LenM : length marks = length (linesOf SEnvTrans L).
  Variable infty : list (list bool).
  Let n := unmarked marks.
  Let unlimited (lv : list nat) : Prop := realizable (resilientGame (inputsFirst L) fs marks (violable lv)).
  Hypothesis infty_len : forall r, In r infty -> length r = n.
  Hypothesis infty_good : forall r, In r infty -> realizable (resilientGame (inputsFirst L) fs marks r).
  Hypothesis infty_all : forall lv, length lv = n -> unlimited lv -> exists r, In r infty /\ below (violable lv) r.

  Definition uncovered (lv : list nat) : Prop := forall r, In r infty -> isLeqRef lv r = false.
  Definition PM (x : list nat * nat) : Prop := length (fst x) = n /\ Forall (fun v => v <= 2) (fst x) /\ 1 <= snd x /\ (snd x = 1 \/ uncovered (fst x)).
  Definition goodM (x : list nat * nat) : Prop := resilient (inputsFirst L) fs marks (fst x) (snd x).
  Let oracle := checkMixedRobustImplementability ord nofCounterBits d (marked true marks (linesOf SEnvTrans L)).

  Lemma uncovered_spec lv : length lv = n -> (uncovered lv <-> ~ unlimited lv).
  Proof.
    intros E. split.
    - intros U R. destruct (infty_all lv E R) as (r & Hr & B). specialize (U r Hr). rewrite (proj2 (isLeqRef_spec lv r ltac:(rewrite E; symmetry; now apply infty_len)) B) in U. discriminate U.
    - intros N r Hr. destruct (isLeqRef lv r) eqn:T; [|reflexivity]. elim N. apply isLeqRef_spec in T; [|rewrite E; symmetry; now apply infty_len].
      apply (resilient_antitone _ _ _ _ r T). now apply infty_good.
  Qed.
  Lemma oracle_mixed x : length (fst x) = n -> 1 <= snd x -> exists b, oracle x = Ret b /\ (b = true <-> goodM x).
  Proof.
    intros E K. pose proof (mixed_answer L fs marks d Ltidy Hd ND Fresh HF LenM (fst x) E (nofCounterBits (snd x)) (snd x) K (bits _) ord) as A.
    unfold oracle, checkMixedRobustImplementability. destruct (executeFile _ _) eqn:EX; try contradiction. match goal with H : _ = POk ?v |- _ => destruct v; try contradiction end.
    - exists true. split; [reflexivity|]. split; auto.
    - exists false. split; [reflexivity|]. split; [discriminate|]. intros H. now elim A.
  Qed.
  Lemma succ_cond lv : forallb (fun reference => isLessRef lv reference || negb (isLeqRef lv reference)) infty = true <-> uncovered lv.
  Proof.
    rewrite forallb_forall. unfold uncovered. split; intros H r Hr.
    - specialize (H r Hr). apply orb_true_iff in H. destruct H as [H|H]; [now apply isLess_not|now apply negb_true_iff].
    - rewrite (H r Hr). apply orb_true_r.
  Qed.
  Lemma succ_mixed x a : PM x -> In a (mixedSuccessors infty x) -> PM a /\ mixedLeq x a = true /\ mixedLeq a x = false.
  Proof.
    destruct x as [lv k]. intros (P1 & P2 & P3 & P4) Ha. cbn [fst snd] in *. unfold mixedSuccessors in Ha. apply in_app_or in Ha. destruct Ha as [Ha|Ha].
    - apply in_map_iff in Ha. destruct Ha as (b & <- & Hb). destruct (succ_levels lv b Hb) as (E1 & E2 & E3 & E4). unfold PM, mixedLeq. cbn [fst snd]. repeat split; auto; try congruence.
      + destruct P4 as [P4|P4]; [now left|right]. intros r Hr. destruct (isLeqRef b r) eqn:T; [|reflexivity]. apply (isLeqRef_mono lv b r E2) in T. rewrite (P4 r Hr) in T. discriminate T.
      + rewrite (proj2 (levelsLeq_spec lv b (eq_sym E1)) E2), Nat.leb_refl. reflexivity.
      + now rewrite E3.
    - destruct (forallb _ infty) eqn:F; [|destruct Ha]. destruct Ha as [<-|[]]. apply succ_cond in F. unfold PM, mixedLeq. cbn [fst snd]. repeat split; auto.
      + rewrite levelsLeq_refl. cbn [andb]. apply Nat.leb_le. lia.
      + rewrite levelsLeq_refl. cbn [andb]. apply Nat.leb_gt. lia.
  Qed.
  Lemma leq_mixed x y : length (fst x) = length (fst y) -> (mixedLeq x y = true <-> levelsBelow (fst x) (fst y) /\ snd x <= snd y).
  Proof. intros E. unfold mixedLeq. now rewrite andb_true_iff, levelsLeq_spec, Nat.leb_le by exact E. Qed.
  Lemma between_mixed x y : PM x -> PM y -> mixedLeq x y = true -> y = x \/ exists a, In a (mixedSuccessors infty x) /\ mixedLeq a y = true.
  Proof.
    destruct x as [lv k], y as [lv' k']. intros (P1 & P2 & P3 & P4) (Q1 & Q2 & Q3 & Q4) H. apply leq_mixed in H; [|cbn [fst] in *; congruence]. cbn [fst snd] in *. destruct H as [H1 H2].
    unfold mixedSuccessors. destruct (list_eq_dec Nat.eq_dec lv lv') as [E|E].
    - subst lv'. destruct (Nat.eq_dec k k') as [->|K]; [now left|]. right. exists (lv, S k). destruct Q4 as [Q4|Q4]; [lia|]. rewrite (proj2 (succ_cond lv) Q4). split; [apply in_or_app; right; now left|].
      apply leq_mixed; [reflexivity|]. cbn [fst snd]. split; [exact H1|lia].
    - right. destruct (succ_levels_between lv lv' H1 Q2 E) as (a & Ha & B). exists (a, k). split; [apply in_or_app; left; apply in_map_iff; now exists a|].
      destruct (succ_levels lv a Ha) as (E1 & _). apply leq_mixed; cbn [fst snd]; [congruence|auto].
  Qed.
  Lemma known_mixed x : In x (map (fun k => (map (fun a : bool => if a then 2 else 0) k, 1)) infty) -> PM x /\ goodM x.
  Proof.
    intros H. apply in_map_iff in H. destruct H as (r & <- & Hr). unfold PM, goodM. cbn [fst snd]. split.
    - rewrite map_length. repeat split; auto. apply Forall_forall. intros v Hv. apply in_map_iff in Hv. destruct Hv as ([] & <- & _); lia.
    - apply unlimited_resilient. rewrite violable_two. now apply infty_good.
  Qed.

  Lemma mixed_search fuel sols : infty <> [] -> findMixedRobustSolutions ord nofCounterBits fuel d (marked true marks (linesOf SEnvTrans L)) infty = Ret sols ->
    NoDup sols /\
    (forall r, In r sols -> PM r /\ goodM r /\ forall y, PM y -> mixedLeq r y = true -> goodM y -> y = r) /\
    (forall y, PM y -> goodM y -> exists r, In r sols /\ mixedLeq y r = true).
  Proof.
    intros NE. unfold findMixedRobustSolutions. destruct infty as [|first rest] eqn:EI; [now elim NE|]. rewrite <- EI in *. fold oracle. intros E.
    set (start := (map (fun _ : bool => 0) first, 1)) in *.
    assert (LF : length first = n) by (apply infty_len; rewrite EI; now left).
    assert (PS : PM start). { unfold PM, start. cbn [fst snd]. rewrite map_length. repeat split; auto. apply Forall_forall. intros v Hv. apply in_map_iff in Hv. destruct Hv as (b & <- & _). lia. }
    destruct (frontier_spec (list nat * nat) mixedEq mixedLeq (mixedSuccessors infty) oracle (map (fun k => (map (fun a : bool => if a then 2 else 0) k, 1)) infty) PM goodM) with (fuel := fuel) (x := start) (res := sols) as (N & M & C); auto.
    - apply mixedEq_spec.
    - intros x. unfold mixedLeq. now rewrite levelsLeq_refl, Nat.leb_refl.
    - intros x y z. unfold mixedLeq. rewrite !andb_true_iff, !Nat.leb_le. intros [H1 H2] [H3 H4]. split; [eapply levelsLeq_trans; eauto|lia].
    - apply succ_mixed.
    - apply between_mixed.
    - intros x b (P1 & _ & P3 & _) Ho. destruct (oracle_mixed x P1 P3) as (b0 & E0 & H0). rewrite E0 in Ho. apply (f_equal (fun r => match r with Ret q => q | _ => b0 end)) in Ho. cbv beta iota in Ho. subst b. exact H0.
    - intros x y (P1 & _) (Q1 & _) H. apply leq_mixed in H; [|congruence]. now apply levels_antitone.
    - apply known_mixed.
    - split; [exact N|]. split; [exact M|]. intros y Py Gy. apply C; auto. apply leq_mixed; [unfold start; cbn [fst]; rewrite map_length; destruct Py; congruence|]. unfold start. cbn [fst snd]. split; [|apply Py].
      destruct Py as (Ly & _). rewrite <- LF in Ly. clear - Ly. unfold levelsBelow. revert first Ly. generalize (fst y). induction l as [|v l IH]; intros [|b f] Ly; try discriminate Ly; cbn [map]; constructor; [lia|]. apply IH. now injection Ly.
  Qed.
End SEARCH.

(** ** The end of the search *)
Section ENDS.
  Variable A : Type.
  Variables eqA leq : A -> A -> bool.
  Variable succs : A -> list A.
  Variable oracle : A -> pyres bool.
  Variable known : list A.
  Variables P Q : A -> Prop.
  Variable rank : A -> nat.
  Hypothesis succ_P : forall x a, P x -> In a (succs x) -> P a.
  Hypothesis down : forall x y, leq x y = true -> Q y -> Q x.
  Hypothesis known_Q : forall x, In x known -> Q x.
  Hypothesis oracle_Q : forall x, P x -> exists b, oracle x = Ret b /\ (b = true -> Q x).
  Hypothesis rank_succ : forall x a, P x -> Q x -> In a (succs x) -> rank a < rank x.
  Lemma recurse_ends : forall fuel st x, P x -> (forall r, In r (resultStorage A st) -> Q r) -> rank x < fuel ->
    exists st' b, frontierRecurse A eqA leq succs oracle known fuel st x = Ret (st', b) /\ forall r, In r (resultStorage A st') -> Q r.
  Proof.
    induction fuel as [|fuel IH]; intros st x Px Hr Hf; [lia|]. cbn [frontierRecurse].
    destruct (existsb (eqA x) _); [eauto|]. destruct (existsb _ (cachedFalse A st)); [eauto|]. cbn [resultStorage cachedFalse doneStorage].
    match goal with |- context[if ?t then oracle x else Ret true] => assert (exists inside, (if t then oracle x else Ret true) = Ret inside /\ (inside = true -> Q x)) as (inside & E & HQ) end.
    { destruct (negb (existsb (leq x) (resultStorage A st))) eqn:E1; cbn [andb].
      - destruct (negb (existsb (leq x) known)) eqn:E2; [now apply oracle_Q|]. exists true. split; [reflexivity|]. intros _. apply negb_false_iff, existsb_exists in E2. destruct E2 as (r & Hk & Hl). apply (down x r Hl). auto.
      - exists true. split; [reflexivity|]. intros _. apply negb_false_iff, existsb_exists in E1. destruct E1 as (r & Hk & Hl). apply (down x r Hl). auto. }
    rewrite E. cbn [pybind]. destruct inside; [|eexists _, _; split; [reflexivity|exact Hr]]. specialize (HQ eq_refl).
    assert (LP : forall l st, (forall a, In a l -> P a /\ rank a < fuel) -> (forall r, In r (resultStorage A st) -> Q r) ->
      exists st' b, frontierLoop A (frontierRecurse A eqA leq succs oracle known fuel) st l = Ret (st', b) /\ forall r, In r (resultStorage A st') -> Q r).
    { clear st E Hr. induction l as [|a l IHl]; intros st Hl Hr; cbn [frontierLoop]; [eauto|]. destruct (Hl a (or_introl eq_refl)) as [Pa Ra].
      destruct (IH st a Pa Hr Ra) as (st1 & b1 & E1 & H1). rewrite E1. cbn [pybind]. destruct (IHl st1) as (st2 & b2 & E2 & H2); auto. { intros c Hc. apply Hl. now right. }
      rewrite E2. cbn [pybind]. eauto. }
    destruct (LP (succs x) (mkFrontier A (resultStorage A st) (cachedFalse A st) (x :: doneStorage A st))) as (st1 & b1 & E1 & H1); auto.
    { intros a Ha. split; [now apply (succ_P x)|]. pose proof (rank_succ x a Px HQ Ha). lia. }
    rewrite E1. cbn [pybind]. destruct b1; [eauto|]. destruct (existsb (leq x) (resultStorage A st1)); [eauto|]. eexists _, _. split; [reflexivity|].
    cbn [resultStorage]. intros r Hi. apply in_app_or in Hi. destruct Hi as [Hi|[<-|[]]]; auto.
  Qed.
End ENDS.
Definition total (lv : list nat) : nat := fold_right plus 0 lv.
Lemma total_le n lv : length lv = n -> Forall (fun v => v <= 2) lv -> total lv <= 2 * n.
Proof. intros <- F. induction F as [|v lv Hv F IH]; cbn [total fold_right length] in *; [lia|]. fold (total lv) in *. lia. Qed.
Lemma total_succ : forall lv a, In a (levelSuccessors lv) -> total a = S (total lv).
Proof.
  induction lv as [|v lv IH]; intros a Ha; cbn [levelSuccessors] in Ha; [destruct Ha|]. apply in_app_or in Ha. destruct Ha as [Ha|Ha].
  - destruct (v <? 2)%nat; [|destruct Ha]. destruct Ha as [<-|[]]. reflexivity.
  - apply in_map_iff in Ha. destruct Ha as (b & <- & Hb). cbn [total fold_right]. fold (total b) (total lv). rewrite (IH b Hb). lia.
Qed.
