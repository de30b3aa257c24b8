(** * The translation of structured slugs formulas *)

From Coq Require Import String Ascii List Bool Arith NArith ZArith Lia.
From Coq Require Import DecimalString.
From Verif Require Import FormulaSpec ParserProofs OutputSpec OutputProofs Explicit StructuredSpec Structured.
Import ListNotations.
Local Open Scope list_scope.

(** ** Words *)

Lemma words_nonempty a s : isWs a = false -> words (String a s) <> [].
Proof. intros E. cbn [words]. rewrite E. destruct s as [|b s]; [discriminate|]. destruct (isWs b); [discriminate|]. destruct (words (String b s)); discriminate. Qed.

Lemma words_sp s t : words (s ++ String " " t)%string = words s ++ words t.
Proof.
  induction s as [|a s IH]; [reflexivity|]. change (String a s ++ String " " t)%string with (String a (s ++ String " " t)).
  cbn [words]. rewrite IH. destruct (isWs a) eqn:Ea; auto.
  destruct s as [|b s]; [reflexivity|]. cbn [append]. destruct (isWs b) eqn:Eb; [reflexivity|].
  pose proof (words_nonempty b s Eb) as N. destruct (words (String b s)) as [|w ws]; [congruence|reflexivity].
Qed.

Lemma words_join l : words (String.concat " " l) = flat_map words l.
Proof.
  induction l as [|s l IH]; [reflexivity|]. cbn [String.concat flat_map]. destruct l as [|t l].
  - cbn. now rewrite app_nil_r.
  - change (" " ++ String.concat " " (t :: l))%string with (String " " (String.concat " " (t :: l))). rewrite words_sp, IH. reflexivity.
Qed.

Lemma words_count s : length (words s) <= String.length s.
Proof.
  induction s as [|a s IH]; [cbn; lia|]. cbn [words String.length]. destruct (isWs a); [lia|].
  destruct s as [|b s]; [cbn; lia|]. destruct (isWs b); [cbn [length]; lia|]. destruct (words (String b s)); cbn [length] in *; lia.
Qed.

Definition noWs (s : string) : bool := allChars (fun a => negb (isWs a)) s.
Lemma words_noWs a s : noWs (String a s) = true -> words (String a s) = [String a s].
Proof.
  revert a. induction s as [|b s IH]; intros a H; unfold noWs in *.
  - cbn [allChars] in H. apply andb_true_iff in H. destruct H as [H1 _]. apply negb_true_iff in H1. cbn [words]. now rewrite H1.
  - cbn [allChars] in H. apply andb_true_iff in H. destruct H as [H1 H2]. apply negb_true_iff in H1. specialize (IH b H2).
    apply andb_true_iff in H2. destruct H2 as [H2 _]. apply negb_true_iff in H2.
    change (words (String a (String b s))) with (if isWs a then words (String b s) else if isWs b then String a "" :: words (String b s)
      else match words (String b s) with w :: ws => String a w :: ws | [] => [String a ""] end).
    now rewrite H1, H2, IH.
Qed.
Lemma noWs_app s t : noWs (s ++ t)%string = noWs s && noWs t.
Proof. unfold noWs. induction s as [|a s IH]; cbn; auto. now rewrite IH, andb_assoc. Qed.
Lemma noWs_uint u : noWs (NilEmpty.string_of_uint u) = true.
Proof. induction u; cbn; auto. Qed.
Lemma words_str n : words (str n) = [str n].
Proof.
  destruct (showNat_number n) as [(H & _) _]. unfold showNat in H. fold (str n) in H. pose proof (noWs_uint (Nat.to_uint n)) as W. fold (str n) in W.
  destruct (str n) as [|a s]; [congruence|]. now apply words_noWs.
Qed.
Lemma numeral_str n : numeral (str n) (N.of_nat n).
Proof. apply showNat_number. Qed.
Lemma noWs_showZ z : noWs (showZ z) = true.
Proof. unfold showZ, NilEmpty.string_of_int. destruct (Z.to_int z); [apply noWs_uint|]. cbn. apply noWs_uint. Qed.

(** ** Numbers *)

Lemma bitsValue_nonneg bs : (0 <= bitsValue bs)%Z.
Proof. induction bs as [|b bs IH]; cbn [bitsValue]; [lia|]. destruct b; cbn [Z.b2z]; lia. Qed.
Lemma bitsValue_app bs cs : (bitsValue (bs ++ cs) = bitsValue bs + 2 ^ Z.of_nat (length bs) * bitsValue cs)%Z.
Proof.
  induction bs as [|b bs IH]; [cbn [app length bitsValue]; change (Z.of_nat 0) with 0%Z; rewrite Z.pow_0_r; lia|].
  cbn [bitsValue app length]. rewrite IH, Nat2Z.inj_succ, Z.pow_succ_r by lia. ring.
Qed.
Lemma bitsValue_lt bs : (bitsValue bs < 2 ^ Z.of_nat (length bs))%Z.
Proof.
  induction bs as [|b bs IH]; [cbn; lia|]. cbn [bitsValue length]. rewrite Nat2Z.inj_succ, Z.pow_succ_r by lia. destruct b; cbn [Z.b2z]; lia.
Qed.
Lemma bitsValue_skipn n bs : n <= length bs -> bitsValue (skipn n bs) = (bitsValue bs / 2 ^ Z.of_nat n)%Z.
Proof.
  intros L. rewrite <- (firstn_skipn n bs) at 2. rewrite bitsValue_app, firstn_length, Nat.min_l by auto.
  pose proof (bitsValue_lt (firstn n bs)) as H1. pose proof (bitsValue_nonneg (firstn n bs)) as H2. rewrite firstn_length, Nat.min_l in H1 by auto.
  rewrite Z.mul_comm, Z.div_add by lia. rewrite Z.div_small by lia. reflexivity.
Qed.

(** ** Formulas in prefix notation with a buffer *)

Definition env := nat -> bool.
Definition memOf (vals : list (env -> bool)) (e : env) : list (option bool) := map (fun v => Some (v e)) vals.

Section GRAM.
  Variable var : string -> nat -> Prop.
  Variable bound : N.
  Local Notation gramB := (gram var bound false).
  Local Notation gramLB := (gramL var bound false).

  (** The words [ws] are a formula with value [v]. *)
  Definition G (vals : list (env -> bool)) (ws : list string) (v : env -> bool) : Prop :=
    exists f, gramB (length vals) f ws /\ forall e, den e (memOf vals e) f = Some (v e).
  Definition atom (f : fml) : Prop := match f with FTrue | FFalse | FVar _ | FRecall _ => True | _ => False end.
  (** The string [p] points to the value [v]. *)
  Definition P (vals : list (env -> bool)) (p : string) (v : env -> bool) : Prop :=
    exists f, atom f /\ gramB (length vals) f (words p) /\ forall e, den e (memOf vals e) f = Some (v e).

  Lemma P_G vals p v : P vals p v -> G vals (words p) v.
  Proof. intros (f & _ & H). now exists f. Qed.
  Lemma P_ext vals more p v : P vals p v -> P (vals ++ more) p v.
  Proof.
    intros (f & A & Hg & Hd). exists f. split; auto. destruct f as [| |i| | | | | |k]; try contradiction.
    - split; auto. inversion Hg. constructor.
    - split; auto. inversion Hg. constructor.
    - split; auto. inversion Hg; subst. now constructor.
    - assert (L : k < length vals) by now inversion Hg. split.
      + inversion Hg; subst. constructor; auto. rewrite app_length. lia.
      + intros e. rewrite <- Hd. cbn [den]. unfold memOf. rewrite map_app, nth_error_app1 by now rewrite map_length. reflexivity.
  Qed.
  Lemma G_ext_eq vals ws v v' : (forall e, v e = v' e) -> G vals ws v -> G vals ws v'.
  Proof. intros E (f & Hg & Hd). exists f. split; auto. intros e. rewrite <- E. apply Hd. Qed.

  Lemma G_true vals : G vals ["1"%string] (fun _ => true).
  Proof. exists FTrue. split; [constructor|reflexivity]. Qed.
  Lemma G_false vals : G vals ["0"%string] (fun _ => false).
  Proof. exists FFalse. split; [constructor|reflexivity]. Qed.
  Lemma G_not vals ws v : G vals ws v -> G vals ("!"%string :: ws) (fun e => negb (v e)).
  Proof. intros (f & Hg & Hd). exists (FNot f). split; [now constructor|]. intros e. cbn [den]. now rewrite Hd. Qed.
  Lemma G_and vals ws v ws' v' : G vals ws v -> G vals ws' v' -> G vals ("&"%string :: ws ++ ws') (fun e => v e && v' e).
  Proof. intros (f & Hg & Hd) (f' & Hg' & Hd'). exists (FAnd f f'). split; [now constructor|]. intros e. cbn [den]. now rewrite Hd, Hd'. Qed.
  Lemma G_or vals ws v ws' v' : G vals ws v -> G vals ws' v' -> G vals ("|"%string :: ws ++ ws') (fun e => v e || v' e).
  Proof. intros (f & Hg & Hd) (f' & Hg' & Hd'). exists (FOr f f'). split; [now constructor|]. intros e. cbn [den]. now rewrite Hd, Hd'. Qed.
  Lemma G_xor vals ws v ws' v' : G vals ws v -> G vals ws' v' -> G vals ("^"%string :: ws ++ ws') (fun e => xorb (v e) (v' e)).
  Proof. intros (f & Hg & Hd) (f' & Hg' & Hd'). exists (FXor f f'). split; [now constructor|]. intros e. cbn [den]. now rewrite Hd, Hd'. Qed.

  Lemma recall_den vals k v : nth_error vals k = Some v -> (N.of_nat (length vals) <= bound)%N ->
    gramB (length vals) (FRecall k) ["?"%string; str k] /\ forall e, den e (memOf vals e) (FRecall k) = Some (v e).
  Proof.
    intros E B. assert (L : k < length vals) by (apply nth_error_Some; congruence). split.
    - constructor; auto; [apply numeral_str|lia].
    - intros e. cbn [den]. unfold memOf. now rewrite nth_error_map, E.
  Qed.
  Lemma G_recall vals k v : nth_error vals k = Some v -> (N.of_nat (length vals) <= bound)%N -> G vals ["?"%string; str k] v.
  Proof. intros E B. exists (FRecall k). now apply recall_den. Qed.
  Lemma P_recall vals k v : nth_error vals k = Some v -> (N.of_nat (length vals) <= bound)%N -> P vals ("? " ++ str k)%string v.
  Proof.
    intros E B. exists (FRecall k). split; [exact I|].
    replace (words ("? " ++ str k)%string) with ["?"%string; str k]; [now apply recall_den|].
    change ("? " ++ str k)%string with ("?" ++ String " " (str k))%string. now rewrite words_sp, words_str.
  Qed.

  (** The elements of the buffer. *)
  Inductive built : parts -> list fml -> list (env -> bool) -> Prop :=
  | built_nil : built [] [] []
  | built_push ps fs vals t f v : built ps fs vals ->
      gramB (length vals) f (flat_map words t) -> (forall e, den e (memOf vals e) f = Some (v e)) ->
      built (ps ++ [t]) (fs ++ [f]) (vals ++ [v]).
  Definition Bt (ps : parts) (vals : list (env -> bool)) : Prop := exists fs, built ps fs vals.

  Lemma Bt_push ps vals t v : Bt ps vals -> G vals (flat_map words t) v -> Bt (pushPart ps t) (vals ++ [v]).
  Proof. intros (fs & H) (f & Hg & Hd). exists (fs ++ [f]). now constructor. Qed.
  Lemma built_length ps fs vals : built ps fs vals -> length ps = length vals /\ length fs = length vals.
  Proof. induction 1 as [|ps fs vals t f v H [IH1 IH2]]; auto. rewrite !app_length, IH1, IH2. auto. Qed.
  Lemma Bt_length ps vals : Bt ps vals -> length ps = length vals.
  Proof. intros (fs & H). now apply built_length in H. Qed.

  Lemma gramL_snoc n i fs ws f vs : gramLB n i fs ws -> gramB (i + length fs) f vs -> gramLB n i (fs ++ [f]) (ws ++ vs).
  Proof.
    intros H Hf. revert i ws H Hf. induction fs as [|g fs IH]; intros i ws H Hf; inversion H; subst.
    - cbn in *. rewrite <- (app_nil_r vs). constructor; [|constructor]. now rewrite Nat.add_0_r in Hf.
    - cbn [app]. rewrite <- app_assoc. constructor; auto. apply IH; auto. cbn [length] in Hf. now rewrite Nat.add_succ_r in Hf.
  Qed.
  Fixpoint run (e : env) (fs : list fml) (m : list (option bool)) : list (option bool) :=
    match fs with [] => m | f :: fs => run e fs (m ++ [den e m f]) end.
  Lemma run_snoc e fs f m : run e (fs ++ [f]) m = run e fs m ++ [den e (run e fs m) f].
  Proof. revert m. induction fs as [|g fs IH]; intros m; cbn [app run]; auto. Qed.
  Lemma denL_run e fs : forall f m last, denL e (fs ++ [f]) m last = den e (run e fs m) f.
  Proof. induction fs as [|g fs IH]; intros f m last; cbn [app denL run]; auto. Qed.

  Lemma built_run ps fs vals : built ps fs vals -> (forall n, gramLB n 0 fs (flat_map words (concat ps))) /\ forall e, run e fs [] = memOf vals e.
  Proof.
    induction 1 as [|ps fs vals t f v H [IH1 IH2] Hg Hd].
    - split; [intros; constructor|reflexivity].
    - split.
      + intros n. rewrite concat_app, flat_map_app. cbn [concat]. rewrite app_nil_r. apply gramL_snoc; auto.
        apply built_length in H. destruct H as [_ ->]. exact Hg.
      + intros e. rewrite run_snoc, IH2, Hd. unfold memOf. now rewrite map_app.
  Qed.

  (** The formula for a buffer. *)
  Lemma G_buffer ps vals t v vals0 : Bt ps vals -> G vals (flat_map words t) v -> (N.of_nat (S (length ps)) < bound)%N ->
    G vals0 ("$"%string :: str (length (pushPart ps t)) :: flat_map words (concat (pushPart ps t))) v.
  Proof.
    intros (fs & H) (f & Hg & Hd) Hb. exists (FBuf (fs ++ [f])).
    assert (H' : built (ps ++ [t]) (fs ++ [f]) (vals ++ [v])) by now constructor.
    destruct (built_length _ _ _ H) as [L1 L2]. destruct (built_run _ _ _ H') as [R1 _]. destruct (built_run _ _ _ H) as [_ R2]. split.
    - apply g_buf with (n := length (pushPart ps t)).
      + apply numeral_str.
      + unfold pushPart. rewrite app_length. cbn [length]. now rewrite Nat.add_1_r.
      + unfold pushPart. rewrite !app_length. cbn [length]. lia.
      + unfold pushPart. rewrite !app_length. cbn [length]. lia.
      + apply R1.
    - intros e. rewrite den_buf, denL_run, R2. apply Hd.
  Qed.

  (** ** Addition *)

  Definition positions (start n : nat) : list nat := map (fun i => i * 2 + start) (seq 0 n).
  Lemma positions_S start n : positions start (S n) = start :: positions (start + 2) n.
  Proof. unfold positions. cbn [seq map]. f_equal. rewrite <- seq_shift, map_map. apply map_ext. intros i. lia. Qed.

  Definition ev (bs : list (env -> bool)) (e : env) : Z := bitsValue (map (fun b => b e) bs).
  Lemma ev_cons b bs e : ev (b :: bs) e = (Z.b2z (b e) + 2 * ev bs e)%Z.
  Proof. reflexivity. Qed.

  Lemma Forall2_P_ext vals more ps bs : Forall2 (P vals) ps bs -> Forall2 (P (vals ++ more)) ps bs.
  Proof. intros H. induction H; constructor; auto. now apply P_ext. Qed.

  Lemma length_addRest p2 : forall ps, length (addRest p2 ps) = length ps + 2 * length p2.
  Proof. induction p2 as [|b p2 IH]; intros ps; cbn [addRest length]; [lia|]. rewrite IH. unfold pushPart. rewrite !app_length. cbn [length]. lia. Qed.
  Lemma length_addJoint p1 : forall p2 ps, length p1 <= length p2 -> length (addJoint p1 p2 ps) = length ps + 2 * length p2.
  Proof.
    induction p1 as [|a p1 IH]; intros [|b p2] ps L; cbn [addJoint length] in *; rewrite ?length_addRest; cbn [length]; try lia.
    rewrite IH by lia. unfold pushPart. rewrite !app_length. cbn [length]. lia.
  Qed.

  (** [ps] grows to [ps'], whose new elements contain the sum. *)
  Definition adds (vals : list (env -> bool)) (ps' : parts) (n : nat) (total : env -> Z) : Prop :=
    exists more sums carry, Bt ps' (vals ++ more) /\
      Forall2 (fun k v => nth_error (vals ++ more) k = Some v) (positions (length vals) n) sums /\
      nth_error (vals ++ more) (length (vals ++ more) - 1) = Some carry /\
      forall e, total e = (ev sums e + 2 ^ Z.of_nat n * Z.b2z (carry e))%Z.

  Lemma adds_step vals s c' ps' n total total' : adds (vals ++ [s; c']) ps' n total ->
    (forall e, total' e = Z.b2z (s e) + 2 * total e)%Z -> adds vals ps' (S n) total'.
  Proof.
    intros (more & sums & carry & HB & HF & HC & HT) E. exists (s :: c' :: more), (s :: sums), carry.
    rewrite <- app_assoc in *. cbn [app] in *. split; auto. split.
    - rewrite positions_S. constructor.
      + rewrite nth_error_app2, Nat.sub_diag by lia. reflexivity.
      + rewrite app_length in HF. exact HF.
    - split; auto. intros e. rewrite E, HT, ev_cons, Nat2Z.inj_succ, Z.pow_succ_r by lia. ring.
  Qed.

  Lemma nth_error_last {A} (l : list A) x : nth_error (l ++ [x]) (length (l ++ [x]) - 1) = Some x.
  Proof. rewrite app_length. cbn [length]. rewrite Nat.add_sub, nth_error_app2, Nat.sub_diag by lia. reflexivity. Qed.

  Lemma addRest_spec p2 : forall ps vals bs c, Bt ps vals -> nth_error vals (length vals - 1) = Some c ->
    Forall2 (P vals) p2 bs -> (N.of_nat (length (addRest p2 ps)) <= bound)%N ->
    adds vals (addRest p2 ps) (length p2) (fun e => ev bs e + Z.b2z (c e))%Z.
  Proof.
    induction p2 as [|b p2 IH]; intros ps vals bs c HB HC HF Hb.
    - inversion HF; subst. exists [], [], c. rewrite app_nil_r. split; auto. split; [constructor|]. split; auto.
      intros e. change (ev [] e) with 0%Z. change (2 ^ Z.of_nat (@length string []))%Z with 1%Z. lia.
    - inversion HF as [|b' vb p2' bs' Pb HF']; subst. pose proof (Bt_length _ _ HB) as L. cbn [addRest length] in *.
      rewrite length_addRest in Hb. unfold pushPart in Hb. rewrite !app_length in Hb. cbn [length] in Hb.
      set (s := fun e => xorb (vb e) (c e)). set (c' := fun e => vb e && c e).
      assert (B1 : Bt (pushPart ps ["^"; b; "?"; str (length ps - 1)]%string) (vals ++ [s])).
      { apply Bt_push; auto. cbn [flat_map]. rewrite words_str. change (words "^") with ["^"%string]. change (words "?") with ["?"%string]. cbn [app].
        rewrite L. apply G_xor; [now apply P_G|]. apply G_recall; auto. lia. }
      assert (E1 : length (pushPart ps ["^"; b; "?"; str (length ps - 1)]%string) - 2 = length vals - 1).
      { unfold pushPart. rewrite app_length. cbn [length]. lia. }
      assert (C1 : nth_error (vals ++ [s]) (length vals - 1) = Some c).
      { rewrite nth_error_app1; auto. apply nth_error_Some. congruence. }
      assert (B2 : Bt (pushPart (pushPart ps ["^"; b; "?"; str (length ps - 1)]) ["&"; b; "?"; str (length (pushPart ps ["^"; b; "?"; str (length ps - 1)]) - 2)])%string ((vals ++ [s]) ++ [c'])).
      { apply Bt_push; auto. cbn [flat_map]. rewrite words_str. change (words "&") with ["&"%string]. change (words "?") with ["?"%string]. cbn [app].
        rewrite E1. apply G_and; [now apply P_G, P_ext|]. apply G_recall; auto. rewrite app_length. cbn [length]. lia. }
      apply adds_step with (s := s) (c' := c') (total := fun e => (ev bs' e + Z.b2z (c' e))%Z).
      + rewrite <- app_assoc in B2. cbn [app] in B2. apply IH.
        * exact B2.
        * change [s; c'] with ([s] ++ [c']). rewrite app_assoc. apply nth_error_last.
        * now apply Forall2_P_ext.
        * rewrite length_addRest. unfold pushPart. rewrite !app_length. cbn [length]. lia.
      + intros e. rewrite ev_cons. unfold s, c'. destruct (vb e), (c e); cbn [xorb andb Z.b2z]; lia.
  Qed.

  Lemma addJoint_spec p1 : forall p2 ps vals as_ bs c, Bt ps vals -> nth_error vals (length vals - 1) = Some c ->
    Forall2 (P vals) p1 as_ -> Forall2 (P vals) p2 bs -> length p1 <= length p2 ->
    (N.of_nat (length (addJoint p1 p2 ps)) <= bound)%N ->
    adds vals (addJoint p1 p2 ps) (length p2) (fun e => ev as_ e + ev bs e + Z.b2z (c e))%Z.
  Proof.
    induction p1 as [|a p1 IH]; intros p2 ps vals as_ bs c HB HC HA HF HL Hb.
    - inversion HA; subst. replace (addJoint [] p2 ps) with (addRest p2 ps) in * by now destruct p2.
      destruct (addRest_spec p2 ps vals bs c) as (more & sums & carry & H1 & H2 & H3 & H4); auto.
      exists more, sums, carry. auto.
    - destruct p2 as [|b p2]; [cbn in HL; lia|].
      inversion HF as [|b' vb p2' bs' Pb HF']; subst. inversion HA as [|a' va p1' as' Pa HA']; subst.
      pose proof (Bt_length _ _ HB) as L. rewrite length_addJoint in Hb by auto. cbn [length] in Hb, HL. cbn [addJoint length].
      set (s := fun e => xorb (xorb (va e) (vb e)) (c e)). set (c' := fun e => (va e && vb e || c e && va e) || c e && vb e).
      set (t1 := ["^ ^"; a; b; "?"; str (length ps - 1)]%string).
      assert (B1 : Bt (pushPart ps t1) (vals ++ [s])).
      { apply Bt_push; auto. unfold t1. cbn [flat_map]. rewrite words_str. change (words "^ ^") with ["^"; "^"]%string. change (words "?") with ["?"%string]. cbn [app].
        rewrite L. rewrite app_assoc. change ("^" :: "^" :: (words a ++ words b) ++ ["?"; str (length vals - 1)])%string
          with ("^"%string :: ("^"%string :: (words a ++ words b)) ++ ["?"; str (length vals - 1)]%string).
        apply G_xor; [apply G_xor; now apply P_G|]. apply G_recall; auto. lia. }
      assert (E1 : length (pushPart ps t1) - 2 = length vals - 1).
      { unfold pushPart. rewrite app_length. cbn [length]. lia. }
      assert (C1 : nth_error (vals ++ [s]) (length vals - 1) = Some c).
      { rewrite nth_error_app1; auto. apply nth_error_Some. congruence. }
      set (t2 := ["| | &"; a; b; "& ?"; str (length (pushPart ps t1) - 2); a; "& ?"; str (length (pushPart ps t1) - 2); b]%string).
      assert (B2 : Bt (pushPart (pushPart ps t1) t2) ((vals ++ [s]) ++ [c'])).
      { apply Bt_push; auto. unfold t2. cbn [flat_map]. rewrite words_str. change (words "| | &") with ["|"; "|"; "&"]%string. change (words "& ?") with ["&"; "?"]%string. cbn [app].
        rewrite E1, app_nil_r. set (k := str (length vals - 1)).
        assert (PA : G (vals ++ [s]) (words a) va) by now apply P_G, P_ext. assert (PB : G (vals ++ [s]) (words b) vb) by now apply P_G, P_ext.
        assert (PC : G (vals ++ [s]) ["?"%string; k] c) by (apply G_recall; auto; rewrite app_length; cbn [length]; lia).
        pose proof (G_or _ _ _ _ _ (G_or _ _ _ _ _ (G_and _ _ _ _ _ PA PB) (G_and _ _ _ _ _ PC PA)) (G_and _ _ _ _ _ PC PB)) as HG.
        cbn [app] in HG. repeat (rewrite <- !app_assoc in HG; cbn [app] in HG). exact HG. }
      apply adds_step with (s := s) (c' := c') (total := fun e => (ev as' e + ev bs' e + Z.b2z (c' e))%Z).
      + rewrite <- app_assoc in B2. cbn [app] in B2. apply IH.
        * exact B2.
        * change [s; c'] with ([s] ++ [c']). rewrite app_assoc. apply nth_error_last.
        * now apply Forall2_P_ext.
        * now apply Forall2_P_ext.
        * lia.
        * rewrite length_addJoint by lia. unfold pushPart. rewrite !app_length. cbn [length]. lia.
      + intros e. rewrite !ev_cons. unfold s, c'. destruct (va e), (vb e), (c e); cbn [xorb andb orb Z.b2z]; lia.
  Qed.

  Lemma F2_length {A B} (R : A -> B -> Prop) l l' : Forall2 R l l' -> length l = length l'.
  Proof. induction 1; cbn; auto. Qed.

  Lemma ev_snoc bs c e : ev (bs ++ [c]) e = (ev bs e + 2 ^ Z.of_nat (length bs) * Z.b2z (c e))%Z.
  Proof. unfold ev. rewrite map_app, bitsValue_app, map_length. cbn [map bitsValue]. lia. Qed.

  Lemma addBits_spec p1 p2 ps vals as_ bs p ps' : Bt ps vals -> Forall2 (P vals) p1 as_ -> Forall2 (P vals) p2 bs ->
    addBits p1 p2 ps = (p, ps') -> (N.of_nat (length ps') <= bound)%N ->
    exists more cs, Bt ps' (vals ++ more) /\ Forall2 (P (vals ++ more)) p cs /\ (forall e, ev cs e = ev as_ e + ev bs e)%Z /\
      length p = widthAdd (length p1) (length p2).
  Proof.
    intros HB H1 H2 E Hb. unfold addBits in E.
    destruct (Nat.eqb_spec (length p1) 0) as [Z1|N1].
    { injection E as <- <-. exists [], bs. rewrite app_nil_r. destruct p1; [|discriminate]. inversion H1; subst. split; [auto|]. split; [auto|]. split; [intros e; reflexivity|reflexivity]. }
    destruct (Nat.eqb_spec (length p2) 0) as [Z2|N2].
    { injection E as <- <-. exists [], as_. rewrite app_nil_r. destruct p2; [|discriminate]. inversion H2; subst. split; [auto|]. split; [auto|].
      split; [intros e; change (ev [] e) with 0%Z; lia|]. now destruct p1. }
    assert (X : exists q1 q2 cs1 cs2, (if Nat.ltb (length p2) (length p1) then (p2, p1) else (p1, p2)) = (q1, q2) /\
      Forall2 (P vals) q1 cs1 /\ Forall2 (P vals) q2 cs2 /\ length q1 <= length q2 /\ length q1 <> 0 /\
      S (length q2) = widthAdd (length p1) (length p2) /\
      forall e, (ev cs1 e + ev cs2 e = ev as_ e + ev bs e)%Z).
    { unfold widthAdd. destruct (length p1) as [|n1] eqn:E1; [congruence|]. destruct (length p2) as [|n2] eqn:E2; [congruence|].
      destruct (Nat.ltb_spec (S n2) (S n1)) as [L|L].
      - exists p2, p1, bs, as_. repeat split; auto; try lia.
      - exists p1, p2, as_, bs. repeat split; auto; try lia. }
    destruct X as (q1 & q2 & cs1 & cs2 & EX & HQ1 & HQ2 & HL & HN & HW & HS). rewrite EX in E.
    destruct q1 as [|a q1]; [cbn in HN; congruence|]. destruct q2 as [|b q2]; [cbn in HL; lia|]. cbn [hd tl] in E.
    inversion HQ1 as [|a' va q1' cs1' Pa HQ1']; subst. inversion HQ2 as [|b' vb q2' cs2' Pb HQ2']; subst.
    pose proof (Bt_length _ _ HB) as L. apply pair_equal_spec in E. destruct E as [<- <-]. cbn [length] in HL, HW.
    rewrite length_addJoint in Hb by lia. unfold pushPart in Hb. rewrite !app_length in Hb. cbn [length] in Hb.
    set (s := fun e => xorb (va e) (vb e)). set (c := fun e => va e && vb e).
    assert (B1 : Bt (pushPart ps ["^"; a; b]%string) (vals ++ [s])).
    { apply Bt_push; auto. cbn [flat_map]. rewrite app_nil_r. change (words "^") with ["^"%string]. cbn [app]. apply G_xor; now apply P_G. }
    assert (B2 : Bt (pushPart (pushPart ps ["^"; a; b]) ["&"; a; b])%string ((vals ++ [s]) ++ [c])).
    { apply Bt_push; auto. cbn [flat_map]. rewrite app_nil_r. change (words "&") with ["&"%string]. cbn [app]. apply G_and; now apply P_G, P_ext. }
    rewrite <- app_assoc in B2. cbn [app] in B2.
    destruct (adds_step vals s c (addJoint q1 q2 (pushPart (pushPart ps ["^"; a; b]) ["&"; a; b])%string) (length q2)
      (fun e => ev cs1' e + ev cs2' e + Z.b2z (c e))%Z (fun e => ev as_ e + ev bs e)%Z) as (more & sums & carry & HB' & HF & HC & HT).
    { apply addJoint_spec; auto.
      - change [s; c] with ([s] ++ [c]). rewrite app_assoc. apply nth_error_last.
      - now apply Forall2_P_ext.
      - now apply Forall2_P_ext.
      - lia.
      - rewrite length_addJoint by lia. unfold pushPart. rewrite !app_length. cbn [length]. lia. }
    { intros e. rewrite <- HS, !ev_cons. unfold s, c. destruct (va e), (vb e); cbn [xorb andb Z.b2z]; lia. }
    pose proof (Bt_length _ _ HB') as L'. rewrite length_addJoint in L' by lia. unfold pushPart in L'. rewrite !app_length in L'. cbn [length] in L'.
    exists more, (sums ++ [carry]). split; auto. split; [|split].
    - assert (BD : (N.of_nat (length (vals ++ more)) <= bound)%N) by (rewrite app_length; lia).
      cbn [length]. apply Forall2_app.
      + change (map (fun i => "? " ++ str (i * 2 + length ps))%string (seq 0 (S (length q2)))) with
          (map (fun i => (fun k => "? " ++ str k)%string (i * 2 + length ps)) (seq 0 (S (length q2)))).
        rewrite <- (map_map (fun i => i * 2 + length ps) (fun k => "? " ++ str k)%string). rewrite L. fold (positions (length vals) (S (length q2))).
        clear - HF BD. induction HF as [|k v ks vs H HF IH]; constructor; auto. now apply P_recall.
      + constructor; [|constructor]. apply P_recall; auto. rewrite (Bt_length _ _ HB'). exact HC.
    - intros e. rewrite ev_snoc, HT. apply F2_length in HF. unfold positions in HF. rewrite map_length, seq_length in HF. now rewrite <- HF.
    - rewrite app_length, map_length, seq_length. cbn [length]. lia.
  Qed.
End GRAM.
