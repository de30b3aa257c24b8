(** * Proofs: the formulas that the resilience checker writes *)

From Coq Require Import String Ascii List Bool Arith NArith ZArith Lia.
From Verif Require Import Synth FormulaSpec Parser Spec FileSpec Execute ParserProofs FileProofs OutputProofs Explicit SymbolicProofs EstimatorText FastSlowFile MonoProofs
  Structured StructFile StructFileProofs StructDeclProofs StructMain StuckProofs ResilientSpec Resilient ResilientProofs MixedSpec MixedGame Mixed.
Import ListNotations.
Local Open Scope list_scope.

(** ** Words *)
Lemma words_times op s : forall n, words (timesStr n (op ++ " ") ++ s)%string = concat (repeat (words op) n) ++ words s.
Proof.
  induction n as [|n IH]; cbn [timesStr repeat concat]; [reflexivity|].
  replace (((op ++ " ") ++ timesStr n (op ++ " ")) ++ s)%string with (op ++ String " " (timesStr n (op ++ " ") ++ s))%string by (rewrite !sapp_assoc; reflexivity).
  now rewrite words_sep, IH, app_assoc.
Qed.
Lemma concat_single {A} (a : A) n : concat (repeat [a] n) = repeat a n.
Proof. induction n as [|n IH]; cbn [repeat concat app]; congruence. Qed.
Lemma words_or n s : words (timesStr n "| " ++ s)%string = repeat "|"%string n ++ words s.
Proof. change "| "%string with ("|" ++ " ")%string. rewrite words_times. change (words "|") with ["|"%string]. now rewrite concat_single. Qed.
Lemma words_and n s : words (timesStr n "& " ++ s)%string = repeat "&"%string n ++ words s.
Proof. change "& "%string with ("&" ++ " ")%string. rewrite words_times. change (words "&") with ["&"%string]. now rewrite concat_single. Qed.
Lemma words_concat l : words (String.concat " " l) = flat_map words l.
Proof.
  induction l as [|a l IH]; [reflexivity|]. destruct l as [|b l]; [cbn [String.concat flat_map]; now rewrite app_nil_r|].
  change (String.concat " " (a :: b :: l)) with (a ++ String " " (String.concat " " (b :: l)))%string. rewrite words_sep, IH. reflexivity.
Qed.
Lemma words_not s : words ("! " ++ s)%string = "!"%string :: words s.
Proof. change ("! " ++ s)%string with ("!" ++ String " " s)%string. rewrite words_sep. reflexivity. Qed.

(** ** Disjunctions and conjunctions *)
Definition orL (l : list fml) : fml := match l with [] => FFalse | f :: l => fold_left FOr l f end.
Definition andL (l : list fml) : fml := match l with [] => FTrue | f :: l => fold_left FAnd l f end.

Section Gram.
  Variable var : string -> nat -> Prop.
  Variable bound : N.
  Notation gr f ws := (gram var bound false 0 f ws).

  Lemma gram_fold op C : (forall f g ws vs, gr f ws -> gr g vs -> gr (C f g) (op :: ws ++ vs)) ->
    forall wss l, Forall2 (fun ws f => gr f ws) wss l -> forall f ws, gr f ws -> gr (fold_left C l f) (repeat op (length l) ++ ws ++ concat wss).
  Proof.
    intros H. induction 1 as [|vs g wss l Hg F IH]; intros f ws Hf; cbn [fold_left length repeat concat app]; [now rewrite app_nil_r|].
    specialize (IH (C f g) (op :: ws ++ vs) (H _ _ _ _ Hf Hg)). cbn [app] in IH.
    replace (op :: repeat op (length l) ++ ws ++ vs ++ concat wss) with (repeat op (length l) ++ op :: (ws ++ vs) ++ concat wss); [exact IH|].
    rewrite <- !app_assoc. change (op :: ws ++ vs ++ concat wss) with ([op] ++ ws ++ vs ++ concat wss). rewrite app_assoc, <- repeat_cons. reflexivity.
  Qed.
  Lemma gram_orL wss l n : Forall2 (fun ws f => gr f ws) wss l -> length l = S n -> gr (orL l) (repeat "|"%string n ++ concat wss).
  Proof. intros F E. destruct F as [|ws f wss l Hf F]; [discriminate E|]. injection E as <-. cbn [orL concat]. apply gram_fold; auto. intros. now apply g_or. Qed.
  Lemma gram_andL wss l n : Forall2 (fun ws f => gr f ws) wss l -> length l = S n -> gr (andL l) (repeat "&"%string n ++ concat wss).
  Proof. intros F E. destruct F as [|ws f wss l Hf F]; [discriminate E|]. injection E as <-. cbn [andL concat]. apply gram_fold; auto. intros. now apply g_and. Qed.
End Gram.

Lemma valued_or f g : valued f -> valued g -> valued (FOr f g) /\ forall e, holds (FOr f g) e = holds f e || holds g e.
Proof.
  intros V V'. split; intros e; destruct (V e) as (b & E), (V' e) as (b' & E').
  - cbn [den]. rewrite E, E'. eexists. reflexivity.
  - unfold holds. cbn [den]. now rewrite E, E'.
Qed.
Lemma valued_and f g : valued f -> valued g -> valued (FAnd f g) /\ forall e, holds (FAnd f g) e = holds f e && holds g e.
Proof.
  intros V V'. split; intros e; destruct (V e) as (b & E), (V' e) as (b' & E').
  - cbn [den]. rewrite E, E'. eexists. reflexivity.
  - unfold holds. cbn [den]. now rewrite E, E'.
Qed.
Lemma valued_not f : valued f -> valued (FNot f) /\ forall e, holds (FNot f) e = negb (holds f e).
Proof.
  intros V. split; intros e; destruct (V e) as (b & E).
  - cbn [den]. rewrite E. eexists. reflexivity.
  - unfold holds. cbn [den]. now rewrite E.
Qed.
Lemma valued_var i : valued (FVar i).
Proof. intros e. eexists. reflexivity. Qed.
Lemma valued_const : valued FTrue /\ valued FFalse.
Proof. split; intros e; eexists; reflexivity. Qed.
Lemma holds_orL l e : Forall valued l -> holds (orL l) e = existsb (fun f => holds f e) l.
Proof.
  intros V. destruct V as [|f l Vf V]; [reflexivity|]. cbn [orL existsb]. revert f Vf. induction V as [|g l Vg V IH]; intros f Vf; cbn [fold_left existsb]; [now rewrite orb_false_r|].
  destruct (valued_or f g Vf Vg) as [V1 V2]. rewrite IH by assumption. now rewrite V2, orb_assoc.
Qed.
Lemma holds_andL l e : Forall valued l -> holds (andL l) e = forallb (fun f => holds f e) l.
Proof.
  intros V. destruct V as [|f l Vf V]; [reflexivity|]. cbn [andL forallb]. revert f Vf. induction V as [|g l Vg V IH]; intros f Vf; cbn [fold_left forallb]; [now rewrite andb_true_r|].
  destruct (valued_and f g Vf Vg) as [V1 V2]. rewrite IH by assumption. now rewrite V2, andb_assoc.
Qed.
Lemma valued_orL l : Forall valued l -> valued (orL l).
Proof.
  intros V. destruct V as [|f l Vf V]; [apply valued_const|]. cbn [orL]. revert f Vf. induction V as [|g l Vg V IH]; intros f Vf; cbn [fold_left]; [exact Vf|]. apply IH. now apply valued_or.
Qed.
Lemma valued_andL l : Forall valued l -> valued (andL l).
Proof.
  intros V. destruct V as [|f l Vf V]; [apply valued_const|]. cbn [andL]. revert f Vf. induction V as [|g l Vg V IH]; intros f Vf; cbn [fold_left]; [exact Vf|]. apply IH. now apply valued_and.
Qed.

(** ** Combinations *)
Lemma combinations_count {A} (P : A -> bool) : forall l r,
  (exists c, In c (combinations l r) /\ forallb P c = true) <-> r <= length (filter P l).
Proof.
  induction l as [|a l IH]; intros [|r]; cbn [combinations filter length].
  - split; [lia|]. intros _. exists []. split; [now left|reflexivity].
  - split; [intros (c & [] & _)|lia].
  - split; [lia|]. intros _. exists []. split; [now left|reflexivity].
  - split.
    + intros (c & H & F). apply in_app_or in H. destruct H as [H|H].
      * apply in_map_iff in H. destruct H as (c' & <- & H). cbn [forallb] in F. apply andb_true_iff in F. destruct F as [F1 F2]. rewrite F1. cbn [length].
        apply le_n_S. apply IH. eauto.
      * assert (X : S r <= length (filter P l)) by (apply IH; eauto). destruct (P a); cbn [length]; lia.
    + intros H. destruct (P a) eqn:E; cbn [length] in H.
      * destruct (proj2 (IH r)) as (c & Hc & F); [lia|]. exists (a :: c). split; [apply in_or_app; left; now apply in_map|]. cbn [forallb]. now rewrite E, F.
      * destruct (proj2 (IH (S r))) as (c & Hc & F); [lia|]. exists c. split; [apply in_or_app; now right|exact F].
Qed.
Lemma combinations_length {A} : forall (l : list A) r c, In c (combinations l r) -> length c = r.
Proof.
  induction l as [|a l IH]; intros [|r] c; cbn [combinations]; try (intros [<-|[]]; reflexivity); [intros []|].
  intros H. apply in_app_or in H. destruct H as [H|H]; [|now apply IH]. apply in_map_iff in H. destruct H as (c' & <- & H). cbn [length]. f_equal. now apply IH.
Qed.
Lemma combinations_incl {A} : forall (l : list A) r c, In c (combinations l r) -> incl c l.
Proof.
  induction l as [|a l IH]; intros [|r] c; cbn [combinations]; try (intros [<-|[]] x []); [intros []|].
  intros H x Hx. apply in_app_or in H. destruct H as [H|H]; [|right; now apply (IH (S r) c)]. apply in_map_iff in H. destruct H as (c' & <- & H).
  destruct Hx as [<-|Hx]; [now left|right; now apply (IH r c')].
Qed.
Lemma combinations_F2 {A B} (R : A -> B -> Prop) : forall l l', Forall2 R l l' -> forall r, Forall2 (Forall2 R) (combinations l r) (combinations l' r).
Proof.
  induction 1 as [|a b l l' H F IH]; intros [|r]; cbn [combinations]; try (constructor; constructor). 
  apply Forall2_app; auto. specialize (IH r). induction IH as [|c c' cs cs' Hc HF IH]; cbn [map]; constructor; auto.
Qed.
Lemma F2_flat_map {A B C} (R : B -> C -> Prop) (f : A -> list B) (g : A -> list C) l : (forall a, In a l -> Forall2 R (f a) (g a)) -> Forall2 R (flat_map f l) (flat_map g l).
Proof. induction l as [|a l IH]; intros H; cbn [flat_map]; [constructor|]. apply Forall2_app; [apply H; now left|apply IH; intros; apply H; now right]. Qed.
Lemma F2_map {A B C D} (R : A -> B -> Prop) (R' : C -> D -> Prop) (f : A -> C) (g : B -> D) l l' :
  Forall2 R l l' -> (forall a b, In a l -> R a b -> R' (f a) (g b)) -> Forall2 R' (map f l) (map g l').
Proof. induction 1 as [|a b l l' H F IH]; intros K; cbn [map]; constructor; [apply K; auto; now left|apply IH; intros; apply K; auto; now right]. Qed.

(** ** Binary numbers *)
Lemma binaryEncode_bit n : forall v i, i < n -> nth i (binaryEncode n v) false = Z.testbit v (Z.of_nat i).
Proof.
  induction n as [|n IH]; intros v i H; [lia|]. cbn [binaryEncode]. destruct i as [|i]; cbn [nth].
  - rewrite Z.bit0_odd. reflexivity.
  - rewrite IH by lia. rewrite Z.shiftr_spec by lia. f_equal. lia.
Qed.
Lemma testbit_nat c i : Z.testbit (Z.of_nat c) (Z.of_nat i) = Nat.testbit c i.
Proof.
  revert c. induction i as [|i IH]; intros c.
  - cbn [Nat.testbit]. rewrite Z.bit0_odd. rewrite <- Nat.bit0_odd. rewrite <- Z.bit0_odd. cbn [Z.of_nat].
    rewrite Z.bit0_odd. rewrite Nat.bit0_odd. destruct (Nat.Even_or_Odd c) as [E|E].
    + replace (Nat.odd c) with false by (symmetry; unfold Nat.odd; apply Nat.even_spec in E; now rewrite E).
      destruct E as (m & ->). rewrite Nat2Z.inj_mul. rewrite Z.odd_mul. reflexivity.
    + replace (Nat.odd c) with true by (symmetry; now apply Nat.odd_spec).
      destruct E as (m & ->). rewrite Nat2Z.inj_add, Nat2Z.inj_mul, Z.odd_add, Z.odd_mul. reflexivity.
  - rewrite Nat2Z.inj_succ. cbn [Nat.testbit]. rewrite <- IH. rewrite <- Z.div2_bits by lia.
    assert (D : (Z.of_nat c / 2)%Z = Z.of_nat (Nat.div2 c)) by (rewrite Nat.div2_div, Nat2Z.inj_div; reflexivity).
    now rewrite D.
Qed.
Lemma cval_top n : forall o b, cval (S n) o b = cval n o b + (if b (o + n) then 2 ^ n else 0).
Proof.
  induction n as [|n IH]; intros o b.
  - cbn [cval Nat.pow]. rewrite (Nat.add_0_r o). destruct (b o); reflexivity.
  - change (cval (S (S n)) o b) with ((if b o then 1 else 0) + 2 * cval (S n) (S o) b). rewrite IH.
    change (cval (S n) o b) with ((if b o then 1 else 0) + 2 * cval n (S o) b). replace (S o + n) with (o + S n) by lia.
    destruct (b (o + S n)); rewrite ?Nat.pow_succ_r'; lia.
Qed.
Lemma cval_nat n c : c < 2 ^ n -> cval n 0 (Nat.testbit c) = c.
Proof. intros H. apply cval_of; auto. Qed.
