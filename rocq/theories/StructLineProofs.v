(** * Proofs: names, lines and limits of translated files *)

From Coq Require Import String Ascii List Bool Arith NArith ZArith Lia.
From Coq Require Import DecimalString.
From Verif Require Import FormulaSpec Parser Spec FileSpec ParserProofs FileProofs OutputProofs SymbolicProofs EstimatorText Sem MonoProofs MinCoreProofs AigMain
  StructuredSpec Structured StructuredProofs StructuredTrans StructuredAccept PropsStructured StructGrammar StructParse StructReadProofs StructFileSpec StructFile StructGameProofs StructFileProofs StructDeclProofs.
Import ListNotations.
Local Open Scope list_scope.

(** ** Lists of digits after operators *)

Definition isOp (w : string) : bool := String.eqb w "$" || String.eqb w "?".
Definition isNumber (w : string) : bool := negb (String.eqb w "") && allDigits w.
Fixpoint plainB (ws : list string) : bool :=
  match ws with
  | [] => true
  | op :: ws => match ws with [] => negb (isOp op) | w :: _ => (if isOp op then isNumber w else true) && plainB ws end
  end.
Lemma plainB_app a : forall b, plainB a = true -> plainB b = true -> plainB (a ++ b) = true.
Proof.
  induction a as [|x a IH]; intros b Ha Hb; [exact Hb|]. destruct a as [|y a].
  - cbn [plainB app] in *. apply negb_true_iff in Ha. destruct b; [now rewrite Ha|]. now rewrite Ha, Hb.
  - change (plainB (x :: y :: a)) with ((if isOp x then isNumber y else true) && plainB (y :: a)) in Ha. apply andb_prop in Ha. destruct Ha as [H1 H2].
    change (plainB ((x :: y :: a) ++ b)) with ((if isOp x then isNumber y else true) && plainB ((y :: a) ++ b)). now rewrite H1, IH.
Qed.
Lemma plainB_number w ws : isNumber w = true -> plainB ws = true -> plainB (w :: ws) = true.
Proof.
  intros H1 H2. cbn [plainB]. assert (E : isOp w = false).
  { unfold isOp. destruct (String.eqb_spec w "$") as [->|]; [discriminate|]. destruct (String.eqb_spec w "?") as [->|]; [discriminate|reflexivity]. }
  rewrite E. destruct ws; auto.
Qed.
Lemma plainB_spec ws : plainB ws = true -> plain_words ws.
Proof.
  intros H p op w q -> Ho. revert H. induction p as [|x p IH]; intros H.
  - cbn [app] in H. change (plainB (op :: w :: q)) with ((if isOp op then isNumber w else true) && plainB (w :: q)) in H. apply andb_prop in H. destruct H as [H _].
    replace (isOp op) with true in H by (destruct Ho as [-> | ->]; reflexivity). unfold isNumber in H. apply andb_prop in H. destruct H as [H1 H2]. split; auto.
    intros ->. discriminate.
  - apply IH. cbn [app] in H. destruct (p ++ op :: w :: q) as [|y l] eqn:E; [now destruct p|].
    change (plainB (x :: y :: l)) with ((if isOp x then isNumber y else true) && plainB (y :: l)) in H. apply andb_prop in H. tauto.
Qed.
Lemma reserved_op w : reserved w = false -> isOp w = false.
Proof. unfold reserved, isOp. cbn [existsb]. intros H. repeat (apply orb_false_elim in H; destruct H as [?H H]). rewrite H6, H7. reflexivity. Qed.
Lemma gram_plainB var bound loose :
  (forall m f ws, gram var bound loose m f ws -> plainB ws = true) /\ (forall n i fs ws, gramL var bound loose n i fs ws -> plainB ws = true).
Proof.
  assert (NUM : forall w n, numeral w n -> isNumber w = true).
  { intros w n (H1 & H2 & _). unfold isNumber. rewrite H2. destruct (String.eqb_spec w ""); [contradiction|reflexivity]. }
  assert (OP : forall op ws, isOp op = false -> plainB ws = true -> plainB (op :: ws) = true).
  { intros op ws H1 H2. cbn [plainB]. rewrite H1. destruct ws; auto. }
  apply (gram_mutind var bound loose (fun m f ws => plainB ws = true) (fun n i fs ws => plainB ws = true)); intros; auto using plainB_app.
  - cbn [plainB]. now rewrite (reserved_op w).
  - change (plainB ("$"%string :: w :: ws) = true). match goal with X : numeral _ _ |- _ => apply NUM in X; rename X into Hw end.
    change (plainB ("$"%string :: w :: ws)) with (isNumber w && plainB (w :: ws)). rewrite Hw. now apply plainB_number.
  - match goal with X : numeral _ _ |- _ => apply NUM in X; rename X into Hw end.
    change (plainB ["?"%string; w]) with (isNumber w && plainB [w]). rewrite Hw. now apply plainB_number.
Qed.
Lemma gram_head var bound loose m f ws : gram var bound loose m f ws -> exists w rest, ws = w :: rest /\ (reserved w = true \/ exists i, var w i).
Proof. intros H. destruct H; eexists _, _; (split; [reflexivity|]); try (left; reflexivity). right. eauto. Qed.

(** The first character of a line. *)
Lemma reserved_first w : reserved w = true -> exists a r, w = String a r /\ (a =? "#")%char = false /\ (a =? "[")%char = false.
Proof.
  unfold reserved. cbn [existsb]. intros H. repeat (apply orb_prop in H; destruct H as [H|H]; [apply String.eqb_eq in H; subst; eexists _, _; (split; [reflexivity|split; reflexivity])|]). discriminate.
Qed.
Lemma gram_line var bound loose m f l : gram var bound loose m f (words l) -> (forall w i, var w i -> exists a r, w = String a r /\ isWordStart a = true) ->
  contentS l = true /\ firstIs "[" (strip l) = false.
Proof.
  intros H HV. destruct (gram_head _ _ _ _ _ _ H) as (w & rest & E & C). destruct (first_word _ _ _ E) as (a & r & r' & -> & S & _).
  unfold contentS. rewrite S. unfold content. cbn [String.eqb firstIs orb].
  assert (X : (a =? "#")%char = false /\ (a =? "[")%char = false).
  { destruct C as [C|(i & C)].
    - apply reserved_first in C. destruct C as (b & r2 & E2 & C). now injection E2 as -> ->.
    - apply HV in C. destruct C as (b & r2 & E2 & C). injection E2 as -> ->. now apply wordStart_first. }
  destruct X as [-> ->]. auto.
Qed.

(** ** Names *)

Section NAMES.
  Variables ins outs : list declaration.
  Let ds := ins ++ outs.
  Let N := flat_map namesOfBits ds.
  Let names := allNames ins outs.

  Lemma nth_double (l : list string) : forall k w, nth_error l k = Some w ->
    nth_error (flat_map (fun w => [w; (w ++ "'")%string]) l) (2 * k) = Some w /\ nth_error (flat_map (fun w => [w; (w ++ "'")%string]) l) (2 * k + 1) = Some (w ++ "'")%string.
  Proof.
    induction l as [|a l IH]; intros [|k] w H; try discriminate; cbn in H.
    - injection H as ->. split; reflexivity.
    - destruct (IH k w H) as [H1 H2]. replace (2 * S k) with (S (S (2 * k))) by lia. cbn [flat_map app nth_error plus]. split; [exact H1|exact H2].
  Qed.
  Lemma names_nth k w next : nth_error N k = Some w -> nth_error names (2 * k + Nat.b2n next) = Some (prime next w).
  Proof. intros H. destruct (nth_double N k w H) as [H1 H2]. destruct next; cbn [Nat.b2n prime]; [exact H2|now rewrite Nat.add_0_r]. Qed.
  Lemma val_nth st st' next k : valuation st st' (2 * k + Nat.b2n next) = (if next then st' else st) k.
  Proof.
    unfold valuation. destruct next; cbn [Nat.b2n].
    - now rewrite even_double1, div2_double1.
    - now rewrite Nat.add_0_r, even_double, Nat.div2_double.
  Qed.
  Lemma in_all w : In w names <-> exists v next, In v N /\ w = prime next v.
  Proof.
    unfold names, allNames. rewrite in_flat_map. split.
    - intros (v & Hv & [<-|[<-|[]]]); [exists v, false|exists v, true]; auto.
    - intros (v & next & Hv & ->). exists v. split; auto. destruct next; cbn; auto.
  Qed.
  Lemma first_index w : forall l, In w l -> exists i, names_var l w i.
  Proof.
    induction l as [|a l IH]; [intros []|]. intros H. destruct (string_dec a w) as [->|NE].
    - exists 0. split; [reflexivity|]. intros j Hj. lia.
    - destruct H as [->|H]; [contradiction|]. destruct (IH H) as (i & H1 & H2). exists (S i). split; auto. intros [|j] Hj; [cbn; congruence|]. apply H2. lia.
  Qed.

  Hypothesis ND : NoDup names.
  Lemma nodup_var w i : nth_error names i = Some w -> names_var names w i.
  Proof.
    intros H. split; auto. intros j Hj E. rewrite <- H in E. rewrite NoDup_nth_error in ND. apply ND in E; [lia|]. apply nth_error_Some. congruence.
  Qed.
  Lemma lookup_at st st' next k w : nth_error N k = Some w -> lookup names (valuation st st') (prime next w) = (if next then st' else st) k.
  Proof. intros H. rewrite (lookup_names_var names _ _ (2 * k + Nat.b2n next)); [apply val_nth|]. now apply nodup_var, names_nth. Qed.
  Lemma segment st st' next ws : forall P S, N = P ++ ws ++ S -> map (fun w => lookup names (valuation st st') (prime next w)) ws = map (if next then st' else st) (seq (length P) (length ws)).
  Proof.
    induction ws as [|w ws IH]; intros P S E; [reflexivity|]. cbn [map length seq]. f_equal.
    - apply lookup_at. rewrite E, nth_error_app2, Nat.sub_diag by lia. reflexivity.
    - rewrite (IH (P ++ [w]) S); [|now rewrite <- app_assoc]. rewrite app_length. cbn [length]. now rewrite Nat.add_1_r.
  Qed.
  Lemma names_total l : length (flat_map namesOfBits l) = total l.
  Proof. induction l as [|d l IH]; [reflexivity|]. cbn [flat_map]. rewrite app_length, IH, size_names. reflexivity. Qed.
  Lemma bits_at st st' next A d B : ds = A ++ d :: B ->
    map (fun w => lookup names (valuation st st') (prime next w)) (namesOfBits d) = map (if next then st' else st) (seq (total A) (size d)).
  Proof.
    intros E. rewrite <- size_names, <- names_total. apply (segment st st' next (namesOfBits d) (flat_map namesOfBits A) (flat_map namesOfBits B)).
    unfold N. rewrite E, flat_map_app. reflexivity.
  Qed.

  Hypothesis NI : NoDup (map fst (integers ds)).
  Lemma in_integers x mn mx l : In (x, (mn, mx)) (integers l) <-> In (DInt x mn mx) l.
  Proof.
    unfold integers. rewrite in_flat_map. split.
    - intros ([y|y a b] & H1 & H2); [destruct H2|]. destruct H2 as [H2|[]]. injection H2 as -> -> ->. exact H1.
    - intros H. exists (DInt x mn mx). split; auto. now left.
  Qed.
  Lemma limits_in D x mn mx : NoDup (map fst D) -> limitsOf D x = Some (mn, mx) <-> In (x, (mn, mx)) D.
  Proof.
    unfold limitsOf. induction D as [|[y r] D IH]; intros H; [split; [discriminate|intros []]|]. cbn [map fst] in H. inversion H as [|? ? H1 H2]; subst. cbn [find fst].
    destruct (String.eqb_spec y x) as [->|NE].
    - cbn [snd]. split; [intros E; injection E as ->; now left|]. intros [E|E]; [now injection E as ->|]. elim H1. apply in_map_iff. exists (x, (mn, mx)). auto.
    - rewrite (IH H2). split; [now right|]. intros [E|E]; [injection E as -> _; contradiction|auto].
  Qed.
  Lemma limits_rev x : limitsOf (rev (integers ds)) x = limitsOf (integers ds) x.
  Proof.
    assert (NR : NoDup (map fst (rev (integers ds)))) by (rewrite map_rev; now apply NoDup_rev).
    destruct (limitsOf (rev (integers ds)) x) as [[mn mx]|] eqn:E1, (limitsOf (integers ds) x) as [[mn' mx']|] eqn:E2; auto.
    - apply limits_in in E1; auto. apply in_rev in E1. apply limits_in in E1; auto. congruence.
    - apply limits_in in E1; auto. apply in_rev in E1. apply limits_in in E1; auto. congruence.
    - apply limits_in in E2; auto. apply in_rev in E2. apply limits_in in E2; auto. congruence.
  Qed.
  Lemma limits_decl x : match limitsOf (integers ds) x with
    | Some (mn, mx) => In (DInt x mn mx) ds
    | None => forall mn mx, ~ In (DInt x mn mx) ds
    end.
  Proof.
    destruct (limitsOf (integers ds) x) as [[mn mx]|] eqn:E.
    - apply limits_in in E; auto. now apply in_integers.
    - intros mn mx H. apply in_integers in H. apply limits_in in H; auto. congruence.
  Qed.

  Local Notation matches x := (fun dv : declaration * value => match fst dv with DInt y _ _ => String.eqb y x | DBool _ => false end).
  Lemma find_none x l vs : (forall mn mx, ~ In (DInt x mn mx) l) -> find (matches x) (combine l vs) = None.
  Proof.
    revert vs. induction l as [|d l IH]; intros [|v vs] H; try reflexivity. cbn [combine find fst].
    assert (H' : forall mn mx, ~ In (DInt x mn mx) l) by (intros mn mx X; apply (H mn mx); now right).
    destruct d as [y|y a b]; auto. destruct (String.eqb_spec y x) as [->|NE]; auto. elim (H a b). now left.
  Qed.
  Lemma find_app x a b l vs : length a = length b -> find (matches x) (combine (a ++ l) (b ++ vs)) =
    match find (matches x) (combine a b) with Some r => Some r | None => find (matches x) (combine l vs) end.
  Proof.
    revert b. induction a as [|d a IH]; intros [|v b] E; try discriminate; [reflexivity|]. cbn [app combine find].
    match goal with |- context [if ?c then _ else _] => destruct c end; auto.
  Qed.
  Lemma integerAt_spec p q next x : okPos ins outs p -> okPos ins outs q ->
    intValue (integers ds) names (valuation (bitState ins outs p) (bitState ins outs q)) next x = integerAt ins outs (if next then q else p) x.
  Proof.
    intros Hp Hq. unfold intValue. pose proof (limits_decl x) as LD. set (r := if next then q else p). assert (Hr : okPos ins outs r) by (unfold r; now destruct next).
    destruct (limitsOf (integers ds) x) as [[mn mx]|] eqn:E.
    2:{ unfold integerAt. fold ds. now rewrite find_none. }
    apply in_split in LD. destruct LD as (A & B & ED).
    pose proof (bits_at (bitState ins outs p) (bitState ins outs q) next A (DInt x mn mx) B ED) as BA. cbn [namesOfBits size] in BA.
    match type of BA with ?l = _ => assert (EQ : l = map (bitState ins outs r) (seq (total A) (bitsFor (mx - mn)))) by (rewrite BA; unfold r; now destruct next) end.
    rewrite EQ. clear BA EQ. clearbody r.
    assert (F : Forall2 fits ds (fst r ++ snd r)) by (destruct Hr; now apply Forall2_app).
    rewrite ED in F. apply Forall2_app_inv_l in F. destruct F as (VA & V & FA & FV & EV). inversion FV as [|d v ? VB Fv FB]; subst. clear FV.
    assert (LA : length A = length VA) by (eapply F2_length; eauto).
    unfold integerAt. fold ds. rewrite ED, EV, find_app by auto.
    rewrite find_none. 2:{ intros a b HA. rewrite ED, integers_app, map_app in NI. cbn [integers flat_map app map fst] in NI.
      apply NoDup_remove_2 in NI. apply NI. apply in_app_iff. left. apply in_map_iff. exists (x, (a, b)). split; auto. now apply in_integers. }
    cbn [combine find fst]. rewrite String.eqb_refl. destruct v as [b|z]; [destruct Fv|]. cbn [fits] in Fv.
    assert (EB : map (bitState ins outs r) (seq (total A) (bitsFor (mx - mn))) = bitsOf (DInt x mn mx) (VInt z)).
    { assert (EN : forall k, bitState ins outs r k = nth k (enc A VA ++ bitsOf (DInt x mn mx) (VInt z) ++ enc B VB) false).
      { intros k. unfold bitState. fold ds. rewrite ED, EV. f_equal. apply (enc_app A (DInt x mn mx :: B) VA (VInt z :: VB)). auto. }
      rewrite (map_ext _ _ EN). destruct (dec_enc _ _ FA) as (_ & _ & L). rewrite <- L. pose proof (bitsOf_length (DInt x mn mx) (VInt z) Fv) as LB. cbn [size] in LB. rewrite <- LB.
      generalize (bitsOf (DInt x mn mx) (VInt z)) (enc A VA) (enc B VB). clear. intros l a b. revert a. induction l as [|y l IH]; intros a; [reflexivity|]. cbn [length seq map]. f_equal.
      - rewrite app_nth2, Nat.sub_diag by lia. reflexivity.
      - specialize (IH (a ++ [y])). rewrite app_length in IH. cbn [length] in IH. rewrite Nat.add_1_r in IH. etransitivity; [|exact IH]. apply map_ext. intros k. now rewrite <- app_assoc. }
    rewrite EB. cbn [bitsOf]. destruct (bitsFor_spec (mx - mn) ltac:(lia)) as [BS _]. rewrite bitsValue_testbit by lia. lia.
  Qed.
End NAMES.
