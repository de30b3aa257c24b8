(** * Proofs about the translation to circuits: files *)

From Coq Require Import String Ascii List Bool Arith NArith ZArith Lia Permutation.
From Verif Require Import Spec FormulaSpec FileSpec Parser ParserProofs FileProofs Explicit OutputProofs EstimatorText
  MinCore MonoProofs MinCoreProofs Aig AigSpec AigProofs.
Import ListNotations.
Local Open Scope string_scope.
Local Open Scope list_scope.

(** ** Words and blanks *)

Lemma words_wordB s : Forall wordB (words s).
Proof.
  induction s as [|a s IH]; cbn [words]; [constructor|]. destruct (isWs a) eqn:Ea; [exact IH|].
  assert (A1 : (a =? " ")%char = false) by (destruct (Ascii.eqb_spec a " "); [subst; discriminate|reflexivity]).
  assert (O : wordB (String a "")) by (split; [discriminate|cbn; now rewrite A1]).
  destruct s as [|b s]; [now constructor|]. destruct (isWs b); [now constructor|].
  destruct (words (String b s)) as [|w ws]; [now constructor|]. inversion IH as [|x l [H1 H2] H3]; subst. constructor; auto.
  split; [discriminate|]. cbn. now rewrite A1.
Qed.

Lemma append_assoc (a b c : string) : ((a ++ b) ++ c)%string = (a ++ b ++ c)%string.
Proof. induction a; cbn; congruence. Qed.

Lemma join_app a b : a <> [] -> b <> [] -> join (a ++ b) = (join a ++ String " " (join b))%string.
Proof.
  induction a as [|w a IH]; intros Ha Hb; [now elim Ha|]. destruct a as [|w' a].
  - destruct b as [|v b]; [now elim Hb|]. reflexivity.
  - change (join ((w :: w' :: a) ++ b)) with (w ++ String " " (join ((w' :: a) ++ b)))%string.
    rewrite IH, join_cons, append_assoc by (auto; discriminate). reflexivity.
Qed.

Lemma join_lines lines : Forall (fun l => words l <> [] /\ join (words l) = l) lines -> join (flat_map words lines) = join lines.
Proof.
  induction lines as [|l lines IH]; intros F; [reflexivity|]. inversion F as [|x y [H1 H2] F']; subst. cbn [flat_map].
  destruct lines as [|l' lines].
  - cbn [flat_map]. rewrite app_nil_r. exact H2.
  - assert (N : flat_map words (l' :: lines) <> []).
    { cbn [flat_map]. inversion F' as [|x y [H3 _] _]; subst. destruct (words l'); [now elim H3|discriminate]. }
    rewrite join_app, IH, H2 by auto. reflexivity.
Qed.

Lemma repeatAnd_join k ws : ws <> [] -> (repeatAnd k ++ join ws)%string = join (repeat "&" k ++ ws).
Proof.
  intros N. induction k as [|k IH]; [reflexivity|]. cbn [repeatAnd repeat app]. rewrite append_assoc, IH.
  destruct (repeat "&" k ++ ws) as [|v l] eqn:E; [apply app_eq_nil in E; now elim N|]. reflexivity.
Qed.

(** ** Conjunctions *)

Lemma gram_conj var bound fs : forall f ws lines, gram var bound false 0 f ws ->
  Forall2 (fun line f => gram var bound false 0 f (words line)) lines fs ->
  gram var bound false 0 (fold_left FAnd fs f) (repeat "&" (length lines) ++ ws ++ flat_map words lines).
Proof.
  induction fs as [|g fs IH]; intros f ws lines G F; inversion F as [|line x lines' y G1 F']; subst; cbn [length repeat fold_left flat_map app].
  - now rewrite app_nil_r.
  - specialize (IH (FAnd f g) ("&" :: ws ++ words line) lines' (g_and _ _ _ _ _ _ _ _ G G1) F').
    replace ("&" :: repeat "&" (length lines') ++ ws ++ words line ++ flat_map words lines')
      with (repeat "&" (length lines') ++ ("&" :: ws ++ words line) ++ flat_map words lines'); [exact IH|].
    change ("&" :: repeat "&" (length lines') ++ ws ++ words line ++ flat_map words lines')
      with (repeat "&" (S (length lines')) ++ ws ++ words line ++ flat_map words lines').
    replace (repeat "&" (S (length lines'))) with (repeat "&" (length lines') ++ ["&"]).
    + cbn [app]. rewrite <- !app_assoc. reflexivity.
    + change ["&"] with (repeat "&" 1). rewrite <- repeat_app. f_equal. lia.
Qed.

Lemma den_conj val fs : forall f b, den val [] (fold_left FAnd fs f) = Some b -> b = holds f val && forallb (fun f => holds f val) fs.
Proof.
  induction fs as [|g fs IH]; intros f b H; cbn [fold_left forallb] in *.
  - unfold holds. rewrite H. now rewrite andb_true_r.
  - apply IH in H. rewrite H. unfold holds at 1. cbn [den].
    unfold holds at 2 3. destruct (den val [] f) as [x|]; cbn [lift2]; auto. destruct (den val [] g) as [y|]; cbn [lift2]; [now rewrite andb_assoc|].
    now rewrite andb_false_r.
Qed.

Definition spaced (line : string) : Prop := join (words line) = line.

Lemma encodeSection_spec variables var bound lines fs P v n :
  Forall2 (fun line f => gram var bound false 0 f (words line)) lines fs -> lines <> [] -> Forall spaced lines -> knows variables var P v ->
  exists g v' n' gs, encodeSection variables lines v n = TOk (g, v', n', map gl gs) /\ yields P v n g v' n' gs /\
    forall e val, valued variables var e val -> gatesOk e gs -> lit e g = forallb (fun f => holds f val) fs.
Proof.
  intros F N S K. destruct F as [|line f lines fs G F]; [now elim N|].
  pose proof (gram_conj var bound fs f (words line) lines G F) as GC. set (ws := repeat "&" (length lines) ++ words line ++ flat_map words lines) in *.
  assert (NW : forall l, In l (line :: lines) -> words l <> []).
  { intros l [<-|H]; [eapply gram_nonempty; eauto|]. destruct (Forall2_in_l _ _ _ _ F H) as (g & _ & Gg). eapply gram_nonempty; eauto. }
  assert (E : (repeatAnd (length (line :: lines) - 1) ++ String.concat " " (line :: lines))%string = join ws).
  { change (String.concat " " (line :: lines)) with (join (line :: lines)).
    rewrite <- (join_lines (line :: lines)).
    - cbn [length]. rewrite Nat.sub_succ, Nat.sub_0_r, repeatAnd_join; [reflexivity|]. cbn [flat_map]. specialize (NW line (or_introl eq_refl)).
      destruct (words line); [now elim NW|discriminate].
    - rewrite Forall_forall in *. intros l Hl. split; [apply NW; auto|]. now apply S. }
  assert (W : Forall wordB ws).
  { unfold ws. apply Forall_app. split; [|apply Forall_app; split; [apply words_wordB|]].
    - clear. induction (length lines); cbn; constructor; auto. split; [discriminate|reflexivity].
    - clear. induction lines; cbn; [constructor|]. apply Forall_app. split; auto. apply words_wordB. }
  unfold encodeSection. rewrite E.
  destruct (proj1 (aig_encoding variables var bound) 0 _ _ GC (Datatypes.S (String.length (join ws))) [] v n [] P) as (g & v' & n' & gs & R & Y & D); auto.
  { now rewrite app_nil_r. }
  { rewrite app_nil_r. lia. }
  rewrite app_nil_r in R. rewrite R. cbn [tbind join String.concat String.eqb]. exists g, v', n', gs. split; [reflexivity|]. split; [exact Y|].
  intros e val HV HG. specialize (D e val HV HG). cbn [map] in D. apply den_conj in D. exact D.
Qed.

(** ** Dictionaries *)

Lemma dget_dset d k v k' : dget (dset d k v) k' = if String.eqb k k' then Some v else dget d k'.
Proof.
  induction d as [|[a x] d IH]; cbn; [reflexivity|]. destruct (String.eqb_spec a k) as [->|Hn]; cbn.
  - destruct (String.eqb_spec k k'); auto.
  - rewrite IH. destruct (String.eqb_spec a k') as [<-|]; auto. destruct (String.eqb_spec k a); congruence.
Qed.
Lemma dset_length d k v : dget d k = None -> length (dset d k v) = S (length d).
Proof.
  induction d as [|[a x] d IH]; cbn; [reflexivity|]. destruct (String.eqb_spec a k); [discriminate|]. intros H. cbn. now rewrite IH.
Qed.

(** The literals from variable v+1. *)
Fixpoint inputLits (v n : nat) : list nat := match n with O => [] | S n => (v + 1) * 2 :: inputLits (v + 1) n end.
Fixpoint latchPairs (v u n : nat) : list (nat * nat) :=
  match n with O => [] | S n => ((v + 1) * 2, (u + 1) * 2) :: latchPairs (v + 1) (u + 1) n end.

Lemma inputLits_nth n : forall v j, j < n -> nth_error (inputLits v n) j = Some ((v + 1 + j) * 2).
Proof.
  induction n as [|n IH]; intros v j H; [lia|]. destruct j as [|j]; cbn [inputLits nth_error]; [now rewrite Nat.add_0_r|].
  rewrite IH by lia. f_equal. lia.
Qed.
Lemma inputLits_length n : forall v, length (inputLits v n) = n.
Proof. induction n; intros; cbn; auto. Qed.
Lemma latchPairs_length n : forall v u, length (latchPairs v u n) = n.
Proof. induction n; intros; cbn; auto. Qed.
Lemma inputLits_vars n : forall v, map Nat.div2 (inputLits v n) = seq (S v) n.
Proof. induction n as [|n IH]; intros v; [reflexivity|]. cbn [inputLits map seq]. rewrite div2_2, IH. f_equal; [lia|f_equal; lia]. Qed.
Lemma latchPairs_fst n : forall v u, map fst (latchPairs v u n) = inputLits v n.
Proof. induction n as [|n IH]; intros v u; cbn; [reflexivity|]. now rewrite IH. Qed.
Lemma latchPairs_snd n : forall v u, map snd (latchPairs v u n) = inputLits u n.
Proof. induction n as [|n IH]; intros v u; cbn; [reflexivity|]. now rewrite IH. Qed.
Lemma latchPairs_in n : forall v u j, j < n -> In ((v + 1 + j) * 2, (u + 1 + j) * 2) (latchPairs v u n).
Proof.
  induction n as [|n IH]; intros v u j H; [lia|]. destruct j as [|j]; cbn [latchPairs]; [left; f_equal; lia|]. right.
  specialize (IH (v + 1) (u + 1) j ltac:(lia)). replace (v + 1 + S j) with (v + 1 + 1 + j) by lia.
  replace (u + 1 + S j) with (u + 1 + 1 + j) by lia. exact IH.
Qed.
Lemma inputLits_even n : forall v, Forall (fun l => Nat.even l = true) (inputLits v n).
Proof. induction n; intros; cbn [inputLits]; constructor; auto. apply even_2. Qed.

Lemma declareVars_spec names : forall v d ls, NoDup names -> (forall w, In w names -> dget d w = None) ->
  exists d', declareVars names v d ls = (v + length names, d', ls ++ map (fun l => [l]) (inputLits v (length names))) /\
    length d' = length d + length names /\
    (forall j w, nth_error names j = Some w -> dget d' w = Some ((v + 1 + j) * 2)) /\
    (forall w, ~ In w names -> dget d' w = dget d w).
Proof.
  induction names as [|x names IH]; intros v d ls ND HD; cbn [declareVars length inputLits map].
  - exists d. rewrite app_nil_r, !Nat.add_0_r. split; [reflexivity|]. split; [reflexivity|]. split; auto. intros [|j] w; discriminate.
  - inversion ND as [|y l NI ND']; subst.
    destruct (IH (v + 1) (dset d x ((v + 1) * 2)) (ls ++ [[(v + 1) * 2]]) ND') as (d' & E & HL & H1 & H2).
    { intros w Hw. rewrite dget_dset. destruct (String.eqb_spec x w); [now subst|]. apply HD. now right. }
    exists d'. rewrite E. split; [|split; [|split]].
    + rewrite <- app_assoc. replace (v + 1 + length names) with (v + S (length names)) by lia. reflexivity.
    + rewrite HL, dset_length by (apply HD; now left). lia.
    + intros [|j] w; cbn [nth_error]; intros X.
      * injection X as <-. rewrite H2 by auto. rewrite dget_dset, String.eqb_refl. f_equal. lia.
      * rewrite (H1 _ _ X). f_equal. lia.
    + intros w Hw. rewrite H2 by (intros X; apply Hw; now right). rewrite dget_dset. destruct (String.eqb_spec x w); auto. subst. elim Hw. now left.
Qed.

Definition primed (x : string) : string := (x ++ "'")%string.
Lemma declareLatches_spec variables names : forall v u d ls, NoDup (names ++ map primed names) ->
  (forall j w, nth_error names j = Some w -> dget variables w = Some ((u + 1 + j) * 2)) ->
  exists d', declareLatches variables names v d ls = TOk (v + length names, d', ls ++ map (fun p => [fst p; snd p]) (latchPairs v u (length names))) /\
    (forall j w, nth_error names j = Some w -> dget d' w = Some ((v + 1 + j) * 2) /\ dget d' (primed w) = Some ((u + 1 + j) * 2)) /\
    (forall w, ~ In w (names ++ map primed names) -> dget d' w = dget d w).
Proof.
  induction names as [|x names IH]; intros v u d ls ND HV; cbn [declareLatches length latchPairs map].
  - exists d. rewrite app_nil_r, !Nat.add_0_r. split; [reflexivity|]. split; auto. intros [|j] w; discriminate.
  - pose proof (HV 0 x eq_refl) as EV. rewrite Nat.add_0_r in EV. rewrite EV. cbn [tget tbind].
    assert (PM : Permutation ((x :: names) ++ map primed (x :: names)) (x :: primed x :: names ++ map primed names)).
    { cbn [app map]. constructor. rewrite (Permutation_middle names (map primed names)). reflexivity. }
    apply (Permutation_NoDup PM) in ND. inversion ND as [|y l N1 ND1]; subst. inversion ND1 as [|y l N2 ND2]; subst.
    destruct (IH (v + 1) (u + 1) (dset (dset d x ((v + 1) * 2)) (x ++ "'") ((u + 1) * 2)) (ls ++ [[(v + 1) * 2; (u + 1) * 2]]) ND2) as (d' & E & H1 & H2).
    { intros j w Hj. rewrite (HV (S j) w Hj). f_equal. lia. }
    exists d'. rewrite E. split; [|split].
    + rewrite <- app_assoc. replace (v + 1 + length names) with (v + S (length names)) by lia. reflexivity.
    + intros [|j] w; cbn [nth_error]; intros X.
      * injection X as <-. rewrite !H2.
        -- rewrite !dget_dset. unfold primed. rewrite !String.eqb_refl, !Nat.add_0_r.
           destruct (String.eqb_spec (x ++ "'") x) as [Y|]; auto. elim N1. left. exact Y.
        -- intros X. apply N2. exact X.
        -- intros X. apply N1. now right.
      * destruct (H1 _ _ X) as [-> ->]. split; f_equal; lia.
    + intros w Hw. rewrite H2.
      * rewrite !dget_dset. destruct (String.eqb_spec (x ++ "'") w) as [<-|].
        -- elim Hw. right. apply in_app_iff. right. now left.
        -- destruct (String.eqb_spec x w); auto. subst. elim Hw. now left.
      * intros X. apply Hw. apply in_app_iff in X. cbn [map]. apply in_app_iff. destruct X; [left; now right|right; now right].
Qed.
