(** * Proofs about the translation to circuits: the gates of formulas *)

From Coq Require Import String Ascii List Bool Arith NArith ZArith Lia Permutation.
From Verif Require Import Spec FormulaSpec FileSpec Parser ParserProofs FileProofs Explicit OutputProofs MinCore Aig AigSpec.
Import ListNotations.
Local Open Scope string_scope.

Definition join (ws : list string) : string := String.concat " " ws.

(** ** Cutting off words *)

Fixpoint noBlank (s : string) : bool :=
  match s with EmptyString => true | String a s => negb (a =? " ")%char && noBlank s end.
Definition wordB (w : string) : Prop := w <> "" /\ noBlank w = true.

Lemma cutBlank_app w s : noBlank w = true -> cutBlank (w ++ String " " s) = Some (w, s).
Proof.
  induction w as [|a w IH]; cbn; auto. intros H. apply andb_true_iff in H. destruct H as [H1 H2].
  apply negb_true_iff in H1. rewrite H1, IH by auto. reflexivity.
Qed.
Lemma cutBlank_none w : noBlank w = true -> cutBlank w = None.
Proof.
  induction w as [|a w IH]; cbn; auto. intros H. apply andb_true_iff in H. destruct H as [H1 H2].
  apply negb_true_iff in H1. now rewrite H1, IH.
Qed.

Lemma join_cons w v ws : join (w :: v :: ws) = w ++ String " " (join (v :: ws)).
Proof. reflexivity. Qed.

Lemma next_word w ws : noBlank w = true ->
  match cutBlank (join (w :: ws)) with Some p => p | None => (join (w :: ws), "") end = (w, join ws).
Proof.
  intros H. destruct ws as [|v ws].
  - cbn [join String.concat]. now rewrite cutBlank_none.
  - rewrite join_cons, cutBlank_app; auto.
Qed.

Lemma length_append s t : String.length (s ++ t) = String.length s + String.length t.
Proof. induction s; cbn; auto. Qed.
Lemma join_length w ws : w <> "" -> String.length (join ws) < String.length (join (w :: ws)).
Proof.
  intros H. destruct ws as [|v ws].
  - cbn. destruct w; [now elim H|cbn; lia].
  - rewrite join_cons, length_append. cbn [String.length]. lia.
Qed.
Lemma join_length_app ws vs : Forall wordB ws -> ws <> [] -> String.length (join vs) < String.length (join (ws ++ vs)).
Proof.
  induction ws as [|w ws IH]; intros F N; [now elim N|]. inversion F as [|x l [H _] F']; subst. cbn [app].
  pose proof (join_length w (ws ++ vs) H). destruct ws as [|w' ws]; [exact H0|].
  pose proof (IH F' ltac:(discriminate)). lia.
Qed.

(** Numbers. *)
Lemma digit_isDigit a : isDigit a = true -> digit a = Some (digitVal a) /\ isspace a = false /\ (a =? "-")%char = false /\ (a =? "+")%char = false.
Proof.
  unfold isDigit, digit, digitVal. intros H. rewrite H. split; [reflexivity|].
  destruct a as [[] [] [] [] [] [] [] []]; vm_compute in H; try discriminate; vm_compute; auto.
Qed.
Lemma takeDigits_all w : forall acc seen, allDigits w = true -> takeDigits acc seen w = (decimal acc w, seen || negb (String.eqb w ""), "").
Proof.
  induction w as [|a w IH]; intros acc seen H; cbn [takeDigits decimal].
  - now rewrite orb_false_r.
  - cbn in H. apply andb_true_iff in H. destruct H as [H1 H2]. destruct (digit_isDigit a H1) as [-> _]. rewrite IH by auto.
    cbn. now rewrite orb_true_r.
Qed.
Lemma trim_digits w : allDigits w = true -> trim w = w.
Proof.
  intros H. unfold trim. assert (E : skipWs w = w).
  { destruct w as [|a w]; auto. cbn in H. apply andb_true_iff in H. destruct H as [H _]. cbn.
    destruct (digit_isDigit a H) as (_ & -> & _). reflexivity. }
  rewrite E. clear E. induction w as [|a w IH]; auto. cbn in H. apply andb_true_iff in H. destruct H as [H1 H2]. cbn.
  rewrite IH by auto. destruct (digit_isDigit a H1) as (_ & -> & _). reflexivity.
Qed.
Lemma pyInt_numeral w n : numeral w n -> pyInt w = Some (Z.of_N n).
Proof.
  intros (H1 & H2 & H3). unfold pyInt. rewrite trim_digits by auto.
  assert (E : match w with
    | String a s' => if (a =? "-")%char then (true, s') else if (a =? "+")%char then (false, s') else (false, w)
    | EmptyString => (false, w)
    end = (false, w)).
  { destruct w as [|a w]; auto. cbn in H2. apply andb_true_iff in H2. destruct H2 as [H2 _].
    destruct (digit_isDigit a H2) as (_ & _ & -> & ->). reflexivity. }
  rewrite E, takeDigits_all, H3 by auto. destruct (String.eqb_spec w ""); [contradiction|]. reflexivity.
Qed.

Lemma pyNth_nat {A} (l : list A) k x : nth_error l k = Some x -> pyNth l (Z.of_nat k) = Some x.
Proof.
  intros H. assert (k < length l) by (apply nth_error_Some; congruence). unfold pyNth.
  destruct (Z.ltb_spec (Z.of_nat k) 0); [lia|]. destruct (Z.ltb_spec (Z.of_nat k) 0); [lia|].
  destruct (Z.leb_spec (Z.of_nat (length l)) (Z.of_nat k)); [lia|]. now rewrite Nat2Z.id.
Qed.

(** ** Literals *)

Lemma flip_div2 n : Nat.div2 (flip n) = Nat.div2 n.
Proof.
  unfold flip. destruct (Nat.even n) eqn:E.
  - destruct (proj1 (Nat.even_spec n) E) as (k & ->). now rewrite Nat.div2_succ_double, Nat.div2_double.
  - assert (O : Nat.odd n = true) by (unfold Nat.odd; now rewrite E). destruct (proj1 (Nat.odd_spec n) O) as (k & ->).
    replace (pred (2 * k + 1)) with (2 * k) by lia. rewrite Nat.div2_double. replace (2 * k + 1) with (S (2 * k)) by lia.
    now rewrite Nat.div2_succ_double.
Qed.
Lemma flip_odd n : Nat.odd (flip n) = negb (Nat.odd n).
Proof.
  unfold flip. destruct (Nat.even n) eqn:E.
  - rewrite Nat.odd_succ, E. unfold Nat.odd. now rewrite E.
  - destruct n as [|n]; [discriminate|]. cbn [pred]. rewrite Nat.odd_succ. reflexivity.
Qed.
Lemma lit_flip e n : lit e (flip n) = negb (lit e n).
Proof. unfold lit. rewrite flip_div2, flip_odd. now rewrite negb_xorb_l. Qed.
Lemma lit_double e v : v <> 0 -> lit e (v * 2) = e v.
Proof.
  intros H. unfold lit. rewrite Nat.mul_comm, Nat.div2_double. rewrite Nat.odd_mul. cbn [Nat.odd Nat.even negb andb xorb]. destruct v; [lia|]. now destruct (e (S v)).
Qed.
Lemma lit_odd e v : lit e (S (v * 2)) = negb (lit e (v * 2)).
Proof.
  replace (S (v * 2)) with (flip (v * 2)); [apply lit_flip|]. unfold flip. now rewrite Nat.even_mul, orb_true_r.
Qed.
Lemma lit_0 e : lit e 0 = false. Proof. reflexivity. Qed.
Lemma lit_1 e : lit e 1 = true. Proof. reflexivity. Qed.
Lemma div2_2 v : Nat.div2 (v * 2) = v.
Proof. rewrite Nat.mul_comm. apply Nat.div2_double. Qed.
Lemma div2_2' v : Nat.div2 (S (v * 2)) = v.
Proof. rewrite Nat.mul_comm. apply Nat.div2_succ_double. Qed.
Lemma even_2 v : Nat.even (v * 2) = true.
Proof. now rewrite Nat.even_mul, orb_true_r. Qed.

(** ** Gates *)

Definition gate : Type := (nat * nat * nat)%type.
Definition gl (g : gate) : gline := let '(a, b, c) := g in [a; b; c].
Definition gvar (g : gate) : nat := Nat.div2 (fst (fst g)).
Definition gatesOk (e : nat -> bool) (gs : list gate) : Prop :=
  forall a b c, In (a, b, c) gs -> lit e a = lit e b && lit e c.

Fixpoint orderedP (P : nat -> Prop) (gs : list gate) : Prop :=
  match gs with
  | [] => True
  | (a, b, c) :: gs =>
      Nat.even a = true /\ ~ P (Nat.div2 a) /\ P (Nat.div2 b) /\ P (Nat.div2 c) /\
      orderedP (fun x => P x \/ x = Nat.div2 a) gs
  end.
Lemma orderedP_ext gs : forall P Q, (forall x, P x <-> Q x) -> orderedP P gs -> orderedP Q gs.
Proof.
  induction gs as [|[[a b] c] gs IH]; intros P Q H; cbn; auto. rewrite <- !H. intros (H1 & H2 & H3 & H4 & H5). repeat split; auto.
  eapply IH; [|exact H5]. intros x. specialize (H x). cbn beta. tauto.
Qed.
Lemma orderedP_app gs1 : forall P gs2, orderedP P (gs1 ++ gs2) <-> orderedP P gs1 /\ orderedP (fun x => P x \/ In x (map gvar gs1)) gs2.
Proof.
  induction gs1 as [|[[a b] c] gs1 IH]; intros P gs2; cbn [app orderedP map].
  - split; [intros H; split; auto|intros [_ H]]; eapply orderedP_ext; eauto; intros x; cbn; tauto.
  - rewrite IH. assert (E : forall x, ((P x \/ x = Nat.div2 a) \/ In x (map gvar gs1)) <-> (P x \/ In x (gvar (a, b, c) :: map gvar gs1))).
    { intros x. cbn. unfold gvar at 2. cbn. intuition. }
    split.
    + intros (H1 & H2 & H3 & H4 & H5 & H6). repeat split; auto. eapply orderedP_ext; [exact E|exact H6].
    + intros ((H1 & H2 & H3 & H4 & H5) & H6). repeat split; auto. eapply orderedP_ext; [|exact H6]. intros x. symmetry. apply E.
Qed.
Lemma orderedP_ordered gs : forall K, ordered K gs <-> orderedP (fun x => In x K) gs.
Proof.
  induction gs as [|[[a b] c] gs IH]; intros K; cbn [ordered orderedP]; [tauto|]. rewrite IH.
  assert (E : forall x, In x (Nat.div2 a :: K) <-> (In x K \/ x = Nat.div2 a)) by (intros x; cbn; intuition).
  split; intros (H1 & H2 & H3 & H4 & H5); repeat split; auto; eapply orderedP_ext; [|exact H5| |exact H5]; intros x; rewrite E; tauto.
Qed.

(** ** The loop over the elements of a buffer *)

Local Open Scope list_scope.
Section REC.
  Variable variables : dict.

  Section ELEMS.
    Variable rec : string -> nat -> nat -> list nat -> rres.
    Fixpoint elemsA (k : nat) (left : Z) (rest : string) (v n : nat) (mem : list nat) (ls : list gline) : rres :=
      if (left <=? 0)%Z then
        tbind (tget (pyNth mem (Z.of_nat (List.length mem) - 1))) (fun g => TOk (rest, g, v, n, ls))
      else match k with
           | O => TFuel
           | S k =>
               tbind (rec rest v n mem) (fun '(rest, g, v, n, ls') =>
                 elemsA k (left - 1)%Z rest v n (mem ++ [g])%list (ls ++ ls')%list)
           end.
  End ELEMS.

  Lemma aigRec_eq fuel formula v n mem : aigRec variables (S fuel) formula v n mem =
    let rec := aigRec variables fuel in
    let '(tok, rest) := match cutBlank formula with Some p => p | None => (formula, "") end in
        if String.eqb tok "1" then TOk (rest, 1, v, n, [])
        else if String.eqb tok "0" then TOk (rest, 0, v, n, [])
        else if String.eqb tok "!" then
          tbind (rec rest v n mem) (fun '(rest, g, v, n, ls) => TOk (rest, flip g, v, n, ls))
        else if String.eqb tok "|" then
          tbind (rec rest v n mem) (fun '(rest, g, v, n, ls) =>
          tbind (rec rest v n mem) (fun '(rest, g2, v, n, ls2) =>
            let v := v + 1 in
            TOk (rest, flip (v * 2), v, n + 1, ls ++ ls2 ++ [[v * 2; flip g; flip g2]])%list))
        else if String.eqb tok "^" then
          tbind (rec rest v n mem) (fun '(rest, g, v, n, ls) =>
          tbind (rec rest v n mem) (fun '(rest, g2, v, n, ls2) =>
            TOk (rest, (v + 3) * 2, v + 3, n + 3,
              ls ++ ls2 ++ [[v * 2 + 2; flip g; flip g2]; [v * 2 + 4; g; g2]; [v * 2 + 6; v * 2 + 3; v * 2 + 5]])%list))
        else if String.eqb tok "&" then
          tbind (rec rest v n mem) (fun '(rest, g, v, n, ls) =>
          tbind (rec rest v n mem) (fun '(rest, g2, v, n, ls2) =>
            let v := v + 1 in
            TOk (rest, v * 2, v, n + 1, ls ++ ls2 ++ [[v * 2; g; g2]])%list))
        else if String.eqb tok "$" then
          let '(num, rest) := match cutBlank rest with Some p => p | None => (butLast rest, rest) end in
          tbind (tget (pyInt num)) (fun parts => elemsA rec (S (String.length rest)) parts rest v n [] [])
        else if String.eqb tok "?" then
          let '(num, rest) := match cutBlank rest with Some p => p | None => (rest, "") end in
          tbind (tget (pyInt num)) (fun part =>
          tbind (tget (pyNth mem part)) (fun g => TOk (rest, g, v, n, [])))
        else tbind (tget (dget variables tok)) (fun g => TOk (rest, g, v, n, [])).
  Proof. reflexivity. Qed.

  Variable var : string -> nat -> Prop.
  Variable bound : N.

  (** What the encoding of a formula yields: [v'] variables are used, and gates [gs] are added. *)
  Definition yields (P : nat -> Prop) (v n : nat) (g v' n' : nat) (gs : list gate) : Prop :=
    v' = v + length gs /\ n' = n + length gs /\ map gvar gs = seq (S v) (length gs) /\
    orderedP P gs /\ (P (Nat.div2 g) \/ (v < Nat.div2 g <= v')).
  Definition knows (P : nat -> Prop) (v : nat) : Prop :=
    P 0 /\ (forall x, P x -> x <= v) /\ (forall w i, var w i -> exists l, dget variables w = Some l /\ P (Nat.div2 l)).
  Definition valued (e val : nat -> bool) : Prop :=
    forall w i l, var w i -> dget variables w = Some l -> lit e l = val i.

  Lemma knows_more P v gs : knows P v -> map gvar gs = seq (S v) (length gs) ->
    knows (fun x => P x \/ In x (map gvar gs)) (v + length gs).
  Proof.
    intros (H1 & H2 & H3) E. split; [now left|]. split.
    - intros x [H|H]; [specialize (H2 x H); lia|]. rewrite E in H. apply in_seq in H. lia.
    - intros w i H. destruct (H3 w i H) as (l & El & Pl). exists l. auto.
  Qed.

  Lemma gatesOk_app e gs1 gs2 : gatesOk e (gs1 ++ gs2) <-> gatesOk e gs1 /\ gatesOk e gs2.
  Proof.
    unfold gatesOk. split.
    - intros H. split; intros a b c I; apply H, in_app_iff; auto.
    - intros [H1 H2] a b c I. apply in_app_iff in I. destruct I; auto.
  Qed.

  Lemma seq_glue v a b : seq (S v) a ++ seq (S (v + a)) b = seq (S v) (a + b).
  Proof. rewrite seq_app. reflexivity. Qed.

  (** Two formulas in a row and further gates. *)
  Lemma yields_two P v n g1 v1 n1 gs1 g2 v2 n2 gs2 : yields P v n g1 v1 n1 gs1 ->
    yields (fun x => P x \/ In x (map gvar gs1)) v1 n1 g2 v2 n2 gs2 ->
    v2 = v + length (gs1 ++ gs2) /\ n2 = n + length (gs1 ++ gs2) /\ map gvar (gs1 ++ gs2) = seq (S v) (length (gs1 ++ gs2)) /\
    orderedP P (gs1 ++ gs2) /\ (P (Nat.div2 g1) \/ (v < Nat.div2 g1 <= v2)) /\ (P (Nat.div2 g2) \/ (v < Nat.div2 g2 <= v2)).
  Proof.
    intros (-> & -> & M1 & O1 & R1) (-> & -> & M2 & O2 & R2). rewrite app_length, map_app, M1, M2, seq_glue.
    repeat split; try lia.
    - apply orderedP_app. split; auto.
    - destruct R1 as [R1|R1]; auto. right. lia.
    - destruct R2 as [[R2|R2]|R2]; auto; right; [|lia]. rewrite M1 in R2. apply in_seq in R2. lia.
  Qed.

  Lemma gl_one g : map gl [g] = [gl g]. Proof. reflexivity. Qed.

  Lemma gram_nonempty m f ws : gram var bound false m f ws -> ws <> [].
  Proof. intros H; inversion H; subst; discriminate. Qed.

  Definition encodes (P : nat -> Prop) (mem : list nat) (res : rres) (v n : nat) (rest : string) (f : fml) : Prop :=
    exists g v' n' gs, res = TOk (rest, g, v', n', map gl gs) /\ yields P v n g v' n' gs /\
      forall e val, valued e val -> gatesOk e gs -> den val (map (fun l => Some (lit e l)) mem) f = Some (lit e g).
  Definition encoding (m : nat) (f : fml) (ws : list string) : Prop :=
    forall fuel tl v n mem P, Forall wordB (ws ++ tl) -> String.length (join (ws ++ tl)) < fuel -> length mem = m ->
      knows P v -> Forall (fun l => P (Nat.div2 l)) mem ->
      encodes P mem (aigRec variables fuel (join (ws ++ tl)) v n mem) v n (join tl) f.

  Lemma binary m f1 f2 ws1 ws2 : encoding m f1 ws1 -> encoding m f2 ws2 ->
    forall fuel tl v n mem P, Forall wordB (ws1 ++ ws2 ++ tl) -> String.length (join (ws1 ++ ws2 ++ tl)) < fuel -> ws1 <> [] -> length mem = m ->
      knows P v -> Forall (fun l => P (Nat.div2 l)) mem ->
      exists g1 v1 n1 gs1 g2 v2 n2 gs2,
        aigRec variables fuel (join (ws1 ++ ws2 ++ tl)) v n mem = TOk (join (ws2 ++ tl), g1, v1, n1, map gl gs1) /\
        aigRec variables fuel (join (ws2 ++ tl)) v1 n1 mem = TOk (join tl, g2, v2, n2, map gl gs2) /\
        v2 = v + length (gs1 ++ gs2) /\ n2 = n + length (gs1 ++ gs2) /\ map gvar (gs1 ++ gs2) = seq (S v) (length (gs1 ++ gs2)) /\
        orderedP P (gs1 ++ gs2) /\ (P (Nat.div2 g1) \/ (v < Nat.div2 g1 <= v2)) /\ (P (Nat.div2 g2) \/ (v < Nat.div2 g2 <= v2)) /\
        forall e val, valued e val -> gatesOk e (gs1 ++ gs2) ->
          den val (map (fun l => Some (lit e l)) mem) f1 = Some (lit e g1) /\
          den val (map (fun l => Some (lit e l)) mem) f2 = Some (lit e g2).
  Proof.
    intros E1 E2 fuel tl v n mem P W HF N1 HM HK HP.
    destruct (E1 fuel (ws2 ++ tl)%list v n mem P W HF HM HK HP) as (g1 & v1 & n1 & gs1 & R1 & Y1 & D1).
    assert (W2 : Forall wordB (ws2 ++ tl)) by (apply Forall_app in W; tauto).
    assert (W1 : Forall wordB ws1) by (apply Forall_app in W; tauto).
    pose proof (join_length_app ws1 (ws2 ++ tl) W1 N1) as HL.
    pose proof Y1 as (V1 & _ & M1 & _).
    destruct (E2 fuel tl v1 n1 mem (fun x => P x \/ In x (map gvar gs1)) W2 ltac:(lia) HM) as (g2 & v2 & n2 & gs2 & R2 & Y2 & D2).
    { rewrite V1. now apply knows_more. }
    { eapply Forall_impl; [|exact HP]. cbn. auto. }
    exists g1, v1, n1, gs1, g2, v2, n2, gs2. split; [exact R1|]. split; [exact R2|].
    destruct (yields_two _ _ _ _ _ _ _ _ _ _ _ Y1 Y2) as (A1 & A2 & A3 & A4 & A5 & A6). repeat (split; [assumption|]).
    intros e val HV HG. apply gatesOk_app in HG. destruct HG. auto.
  Qed.

  (** Adding a gate. *)
  Definition chain (P : nat -> Prop) (v vk : nat) (gs : list gate) : Prop :=
    vk = v + length gs /\ map gvar gs = seq (S v) (length gs) /\ orderedP P gs.
  Definition usable (P : nat -> Prop) (v vk : nat) (l : nat) : Prop := P (Nat.div2 l) \/ (v < Nat.div2 l <= vk).
  Lemma usable_more P v vk vk' l : vk <= vk' -> usable P v vk l -> usable P v vk' l.
  Proof. unfold usable. intros H [U|U]; auto. right. lia. Qed.
  Lemma usable_flip P v vk l : usable P v vk l -> usable P v vk (flip l).
  Proof. unfold usable. now rewrite flip_div2. Qed.
  Lemma chain_gate P v vk gs a b : knows P v -> chain P v vk gs -> usable P v vk a -> usable P v vk b ->
    chain P v (vk + 1) (gs ++ [((vk + 1) * 2, a, b)]).
  Proof.
    intros (K0 & K1 & _) (H1 & H2 & H3) Ha Hb. split; [rewrite app_length; cbn; lia|]. split.
    - rewrite map_app, H2, app_length. cbn [map length]. rewrite <- seq_glue. f_equal. cbn [seq]. f_equal.
      unfold gvar. cbn [fst]. rewrite div2_2. lia.
    - apply orderedP_app. split; auto. cbn [orderedP]. rewrite div2_2, even_2, H2.
      assert (U : forall l, usable P v vk l -> P (Nat.div2 l) \/ In (Nat.div2 l) (seq (S v) (length gs))).
      { intros l [U|U]; auto. right. apply in_seq. lia. }
      repeat split; auto. intros [X|X]; [apply K1 in X; lia|]. apply in_seq in X. lia.
  Qed.
  Lemma gatesOk_one e a b c : gatesOk e [(a, b, c)] -> lit e a = lit e b && lit e c.
  Proof. intros H. apply H. now left. Qed.

  Lemma aig_encoding :
    (forall m f ws, gram var bound false m f ws -> encoding m f ws) /\
    (forall k i fs ws, gramL var bound false k i fs ws ->
      forall fuel c tl v n mem ls P, Forall wordB (ws ++ tl) -> String.length (join (ws ++ tl)) < fuel ->
        String.length (join (ws ++ tl)) < c -> length mem = i -> mem ++ repeat 0 (length fs) <> [] ->
        knows P v -> Forall (fun l => P (Nat.div2 l)) mem ->
        exists g v' n' gs,
          elemsA (aigRec variables fuel) c (Z.of_nat (length fs)) (join (ws ++ tl)) v n mem ls
            = TOk (join tl, g, v', n', ls ++ map gl gs) /\ yields P v n g v' n' gs /\
          forall e val, valued e val -> gatesOk e gs ->
            forall lst, (mem <> [] -> lst = Some (lit e (List.last mem 0))) ->
            denL val fs (map (fun l => Some (lit e l)) mem) lst = Some (lit e g)).
  Proof.
    assert (Cut : forall w ws, wordB w -> match cutBlank (join (w :: ws)) with Some p => p | None => (join (w :: ws), "") end = (w, join ws))
      by (intros w ws [_ H]; now apply next_word).
    assert (Len : forall w ws fuel, Forall wordB (w :: ws) -> String.length (join (w :: ws)) < S fuel -> String.length (join ws) < fuel).
    { intros w ws fuel F H. inversion F as [|x l [N _] _]; subst. pose proof (join_length w ws N). lia. }
    apply (gram_mutind var bound false encoding
      (fun k i fs ws => forall fuel c tl v n mem ls P, Forall wordB (ws ++ tl) -> String.length (join (ws ++ tl)) < fuel ->
        String.length (join (ws ++ tl)) < c -> length mem = i -> mem ++ repeat 0 (length fs) <> [] ->
        knows P v -> Forall (fun l => P (Nat.div2 l)) mem ->
        exists g v' n' gs,
          elemsA (aigRec variables fuel) c (Z.of_nat (length fs)) (join (ws ++ tl)) v n mem ls
            = TOk (join tl, g, v', n', ls ++ map gl gs) /\ yields P v n g v' n' gs /\
          forall e val, valued e val -> gatesOk e gs ->
            forall lst, (mem <> [] -> lst = Some (lit e (List.last mem 0))) ->
            denL val fs (map (fun l => Some (lit e l)) mem) lst = Some (lit e g))).
    - (* 1 *)
      intros m fuel tl v n mem P W HF HM HK HP. destruct fuel as [|fuel]; [lia|]. cbn [app] in *.
      rewrite aigRec_eq, Cut by now inversion W. cbn [String.eqb Ascii.eqb Bool.eqb].
      exists 1, v, n, []. split; [reflexivity|]. split; [|intros; reflexivity].
      repeat split; cbn; try lia. left. apply HK.
    - (* 0 *)
      intros m fuel tl v n mem P W HF HM HK HP. destruct fuel as [|fuel]; [lia|]. cbn [app] in *.
      rewrite aigRec_eq, Cut by now inversion W. cbn [String.eqb Ascii.eqb Bool.eqb].
      exists 0, v, n, []. split; [reflexivity|]. split; [|intros; reflexivity].
      repeat split; cbn; try lia. left. apply HK.
    - (* variables *)
      intros m w i HR HV fuel tl v n mem P W HF HM HK HP. destruct fuel as [|fuel]; [lia|]. cbn [app] in *.
      rewrite aigRec_eq, Cut by now inversion W. unfold reserved in HR. cbn [existsb] in HR.
      repeat (apply orb_false_iff in HR; let H := fresh "R" in destruct HR as [H HR]; rewrite H).
      destruct HK as (K0 & K1 & K2). destruct (K2 w i HV) as (l & El & Pl). rewrite El. cbn [tget tbind].
      exists l, v, n, []. split; [reflexivity|]. split; [repeat split; cbn; auto; lia|].
      intros e val Hval _. cbn. f_equal. symmetry. exact (Hval _ _ _ HV El).
    - (* ! *)
      intros m f ws G IH fuel tl v n mem P W HF HM HK HP. destruct fuel as [|fuel]; [lia|]. cbn [app] in *.
      rewrite aigRec_eq, Cut by now inversion W. cbn [String.eqb Ascii.eqb Bool.eqb].
      destruct (IH fuel tl v n mem P ltac:(now inversion W) ltac:(eapply Len; eauto) HM HK HP) as (g & v' & n' & gs & R & Y & D).
      cbn zeta. rewrite R. cbn [tbind]. exists (flip g), v', n', gs. split; [reflexivity|]. split.
      + destruct Y as (Y1 & Y2 & Y3 & Y4 & Y5). repeat split; auto. now rewrite flip_div2.
      + intros e val HV HG. cbn [den]. rewrite (D e val HV HG), lit_flip. reflexivity.
    - (* & *)
      intros m f g ws vs G1 IH1 G2 IH2 fuel tl v n mem P W HF HM HK HP. destruct fuel as [|fuel]; [lia|]. cbn [app] in *. rewrite <- app_assoc in *.
      rewrite aigRec_eq, Cut by now inversion W. cbn [String.eqb Ascii.eqb Bool.eqb].
      destruct (binary m f g ws vs IH1 IH2 fuel tl v n mem P ltac:(now inversion W) ltac:(eapply Len; eauto) ltac:(eapply gram_nonempty; eauto) HM HK HP)
        as (g1 & v1 & n1 & gs1 & g2 & v2 & n2 & gs2 & R1 & R2 & A1 & A2 & A3 & A4 & A5 & A6 & D).
      cbn zeta. rewrite R1. cbn [tbind]. rewrite R2. cbn [tbind].
      pose proof (chain_gate P v v2 (gs1 ++ gs2) g1 g2 HK (conj A1 (conj A3 A4)) A5 A6) as (B1 & B2 & B3).
      exists ((v2 + 1) * 2), (v2 + 1), (n2 + 1), ((gs1 ++ gs2) ++ [((v2 + 1) * 2, g1, g2)]). split; [rewrite !map_app, <- app_assoc; reflexivity|]. split.
      + repeat split; auto; [rewrite app_length; cbn; lia|]. right. rewrite div2_2. lia.
      + intros e val HV HG. apply gatesOk_app in HG. destruct HG as [HG1 HG2]. destruct (D e val HV HG1) as [E1 E2].
        cbn [den]. rewrite E1, E2. cbn [lift2]. now rewrite (gatesOk_one _ _ _ _ HG2).
    - (* | *)
      intros m f g ws vs G1 IH1 G2 IH2 fuel tl v n mem P W HF HM HK HP. destruct fuel as [|fuel]; [lia|]. cbn [app] in *. rewrite <- app_assoc in *.
      rewrite aigRec_eq, Cut by now inversion W. cbn [String.eqb Ascii.eqb Bool.eqb].
      destruct (binary m f g ws vs IH1 IH2 fuel tl v n mem P ltac:(now inversion W) ltac:(eapply Len; eauto) ltac:(eapply gram_nonempty; eauto) HM HK HP)
        as (g1 & v1 & n1 & gs1 & g2 & v2 & n2 & gs2 & R1 & R2 & A1 & A2 & A3 & A4 & A5 & A6 & D).
      cbn zeta. rewrite R1. cbn [tbind]. rewrite R2. cbn [tbind].
      pose proof (chain_gate P v v2 (gs1 ++ gs2) (flip g1) (flip g2) HK (conj A1 (conj A3 A4)) (usable_flip _ _ _ _ A5) (usable_flip _ _ _ _ A6)) as (B1 & B2 & B3).
      exists (flip ((v2 + 1) * 2)), (v2 + 1), (n2 + 1), ((gs1 ++ gs2) ++ [((v2 + 1) * 2, flip g1, flip g2)]). split; [rewrite !map_app, <- app_assoc; reflexivity|]. split.
      + repeat split; auto; [rewrite app_length; cbn; lia|]. right. rewrite flip_div2, div2_2. lia.
      + intros e val HV HG. apply gatesOk_app in HG. destruct HG as [HG1 HG2]. destruct (D e val HV HG1) as [E1 E2].
        cbn [den]. rewrite E1, E2. cbn [lift2]. rewrite lit_flip, (gatesOk_one _ _ _ _ HG2), !lit_flip.
        now destruct (lit e g1), (lit e g2).
    - (* ^ *)
      intros m f g ws vs G1 IH1 G2 IH2 fuel tl v n mem P W HF HM HK HP. destruct fuel as [|fuel]; [lia|]. cbn [app] in *. rewrite <- app_assoc in *.
      rewrite aigRec_eq, Cut by now inversion W. cbn [String.eqb Ascii.eqb Bool.eqb].
      destruct (binary m f g ws vs IH1 IH2 fuel tl v n mem P ltac:(now inversion W) ltac:(eapply Len; eauto) ltac:(eapply gram_nonempty; eauto) HM HK HP)
        as (g1 & v1 & n1 & gs1 & g2 & v2 & n2 & gs2 & R1 & R2 & A1 & A2 & A3 & A4 & A5 & A6 & D).
      cbn zeta. rewrite R1. cbn [tbind]. rewrite R2. cbn [tbind].
      pose proof (chain_gate P v v2 (gs1 ++ gs2) (flip g1) (flip g2) HK (conj A1 (conj A3 A4)) (usable_flip _ _ _ _ A5) (usable_flip _ _ _ _ A6)) as C1.
      pose proof (chain_gate P v (v2 + 1) _ g1 g2 HK C1 (usable_more P v v2 (v2 + 1) g1 ltac:(lia) A5) (usable_more P v v2 (v2 + 1) g2 ltac:(lia) A6)) as C2.
      assert (X1 : Nat.div2 (S ((v2 + 1) * 2)) = v2 + 1) by apply div2_2'. assert (X2 : Nat.div2 (S ((v2 + 1 + 1) * 2)) = v2 + 1 + 1) by apply div2_2'.
      pose proof (chain_gate P v (v2 + 1 + 1) _ (S ((v2 + 1) * 2)) (S ((v2 + 1 + 1) * 2)) HK C2
        ltac:(right; rewrite X1; lia) ltac:(right; rewrite X2; lia)) as (B1 & B2 & B3).
      set (G := (((gs1 ++ gs2) ++ [((v2 + 1) * 2, flip g1, flip g2)]) ++ [((v2 + 1 + 1) * 2, g1, g2)]) ++ [((v2 + 1 + 1 + 1) * 2, S ((v2 + 1) * 2), S ((v2 + 1 + 1) * 2))]) in *.
      exists ((v2 + 3) * 2), (v2 + 3), (n2 + 3), G. split; [|split].
      + unfold G. rewrite !map_app, <- !app_assoc. cbn [map gl app].
        replace (S ((v2 + 1) * 2)) with (v2 * 2 + 3) by lia. replace (S ((v2 + 1 + 1) * 2)) with (v2 * 2 + 5) by lia.
        replace ((v2 + 1) * 2) with (v2 * 2 + 2) by lia. replace ((v2 + 1 + 1) * 2) with (v2 * 2 + 4) by lia.
        replace ((v2 + 1 + 1 + 1) * 2) with (v2 * 2 + 6) by lia. reflexivity.
      + replace (v2 + 3) with (v2 + 1 + 1 + 1) by lia. repeat split; auto; [unfold G; rewrite !app_length; cbn; rewrite app_length in A2; lia|]. right. rewrite div2_2. lia.
      + intros e val HV HG. unfold G in HG. apply gatesOk_app in HG. destruct HG as [HG HG3]. apply gatesOk_app in HG. destruct HG as [HG HG2].
        apply gatesOk_app in HG. destruct HG as [HG HG1]. destruct (D e val HV HG) as [E1 E2].
        cbn [den]. rewrite E1, E2. cbn [lift2]. replace (v2 + 3) with (v2 + 1 + 1 + 1) by lia.
        rewrite (gatesOk_one _ _ _ _ HG3), !lit_odd, (gatesOk_one _ _ _ _ HG1), (gatesOk_one _ _ _ _ HG2), !lit_flip.
        now destruct (lit e g1), (lit e g2).
    - (* $ *)
      intros m w k fs ws HN HB HL HZ G IH fuel tl v n mem P W HF HM HK HP. destruct fuel as [|fuel]; [lia|]. cbn [app] in *.
      rewrite aigRec_eq, Cut by now inversion W. cbn [String.eqb Ascii.eqb Bool.eqb]. cbn zeta.
      assert (W1 : Forall wordB (w :: ws ++ tl)) by now inversion W. assert (W2 : Forall wordB (ws ++ tl)) by now inversion W1.
      assert (Hw : wordB w) by now inversion W1.
      assert (HF1 : String.length (join (w :: ws ++ tl)) < fuel) by (eapply Len; eauto).
      assert (NE : ws ++ tl <> []).
      { destruct fs as [|f fs]; [cbn in HL; congruence|]. inversion G as [|n0 i0 f0 fs0 ws0 vs0 G0 _]; subst. apply gram_nonempty in G0. destruct ws0; [now elim G0|discriminate]. }
      assert (EC : cutBlank (join (w :: ws ++ tl)) = Some (w, join (ws ++ tl))).
      { destruct (ws ++ tl) as [|u us]; [now elim NE|]. rewrite join_cons. apply cutBlank_app, Hw. }
      rewrite EC, (pyInt_numeral w _ HN). cbn [tget tbind]. rewrite nat_N_Z, <- HL.
      assert (HL2 : String.length (join (ws ++ tl)) < String.length (join (w :: ws ++ tl))) by (apply join_length, Hw).
      destruct (IH fuel (S (String.length (join (ws ++ tl)))) tl v n [] [] P W2 ltac:(lia) ltac:(lia) eq_refl) as (g & v' & n' & gs & R & Y & D); auto.
      { destruct fs; [cbn in HL; congruence|discriminate]. }
      rewrite R. cbn [app]. exists g, v', n', gs. split; [reflexivity|]. split; [exact Y|].
      intros e val HV HG. rewrite den_buf. apply (D e val HV HG). intros X. now elim X.
    - (* ? *)
      intros m w k HN HB HL fuel tl v n mem P W HF HM HK HP. destruct fuel as [|fuel]; [lia|]. cbn [app] in *.
      rewrite aigRec_eq, Cut by now inversion W. cbn [String.eqb Ascii.eqb Bool.eqb]. cbn zeta.
      assert (W1 : Forall wordB (w :: tl)) by now inversion W.
      rewrite Cut by now inversion W1. rewrite (pyInt_numeral w _ HN). cbn [tget tbind]. rewrite nat_N_Z.
      destruct (nth_error mem k) as [g|] eqn:Eg; [|apply nth_error_None in Eg; lia].
      rewrite (pyNth_nat _ _ _ Eg). cbn [tget tbind]. exists g, v, n, []. split; [reflexivity|]. split.
      + repeat split; cbn; try lia. left. rewrite Forall_forall in HP. apply HP. eapply nth_error_In; eauto.
      + intros e val _ _. cbn [den]. now rewrite (map_nth_error (fun l => Some (lit e l)) _ _ Eg).
    - (* no elements left *)
      intros k i fuel c tl v n mem ls P W HF HC HM HN HK HP. cbn [app length Z.of_nat] in *. rewrite app_nil_r in HN.
      assert (EN : exists g, nth_error mem (length mem - 1) = Some g /\ g = List.last mem 0).
      { destruct (exists_last HN) as (l & a & ->). exists a. rewrite last_last, app_length. cbn [length]. split; auto.
        replace (length l + 1 - 1) with (length l) by lia. rewrite nth_error_app2, Nat.sub_diag by lia. reflexivity. }
      destruct EN as (g & Eg & Eg'). assert (HL : length mem <> 0) by (destruct mem; [now elim HN|discriminate]).
      destruct c; [lia|]. cbn [elemsA Z.leb Z.compare]. replace (Z.of_nat (length mem) - 1)%Z with (Z.of_nat (length mem - 1)) by lia.
      rewrite (pyNth_nat _ _ _ Eg). cbn [tget tbind]. exists g, v, n, []. cbn [map]. rewrite app_nil_r. split; [reflexivity|]. split.
      + repeat split; cbn; try lia. left. rewrite Forall_forall in HP. apply HP. eapply nth_error_In; eauto.
      + intros e val _ _ lst Hlst. cbn [denL]. rewrite (Hlst HN). now subst g.
    - (* an element *)
      intros k i f fs ws vs G IHf GL IHL fuel c tl v n mem ls P W HF HC HM HN HK HP. rewrite <- app_assoc in *.
      destruct c as [|c]; [lia|]. assert (NW : ws <> []) by (eapply gram_nonempty; eauto).
      cbn [elemsA length]. destruct (Z.leb_spec (Z.of_nat (S (length fs))) 0); [lia|].
      destruct (IHf fuel (vs ++ tl) v n mem P W HF HM HK HP) as (g & v1 & n1 & gs1 & R1 & Y1 & D1).
      rewrite R1. cbn [tbind]. replace (Z.of_nat (S (length fs)) - 1)%Z with (Z.of_nat (length fs)) by lia.
      assert (W1 : Forall wordB ws) by (apply Forall_app in W; tauto). assert (W2 : Forall wordB (vs ++ tl)) by (apply Forall_app in W; tauto).
      pose proof (join_length_app ws (vs ++ tl) W1 NW) as HL2.
      pose proof Y1 as (V1 & _ & M1 & _ & U1).
      destruct (IHL fuel c tl v1 n1 (mem ++ [g]) (ls ++ map gl gs1) (fun x => P x \/ In x (map gvar gs1)) W2 ltac:(lia) ltac:(lia))
        as (g2 & v2 & n2 & gs2 & R2 & Y2 & D2).
      { rewrite app_length. cbn. lia. }
      { destruct mem; discriminate. }
      { rewrite V1. now apply knows_more. }
      { apply Forall_app. split; [eapply Forall_impl; [|exact HP]; cbn; auto|]. constructor; [|constructor].
        destruct U1 as [U1|U1]; auto. right. rewrite M1. apply in_seq. lia. }
      rewrite R2. exists g2, v2, n2, (gs1 ++ gs2). split; [rewrite map_app, app_assoc; reflexivity|]. split.
      + destruct (yields_two _ _ _ _ _ _ _ _ _ _ _ Y1 Y2) as (A1 & A2 & A3 & A4 & A5 & A6). repeat (split; [assumption|]). exact A6.
      + intros e val HV HG lst _. apply gatesOk_app in HG. destruct HG as [HG1 HG2]. cbn [denL]. rewrite (D1 e val HV HG1).
        specialize (D2 e val HV HG2 (Some (lit e g))). rewrite map_app in D2. apply D2. intros _. now rewrite last_last.
  Qed.
End REC.
