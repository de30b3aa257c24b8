(** * Proofs about formula parsing *)

From Coq Require Import String Ascii List Bool Arith NArith Lia.
From Verif Require Import BDD VarTypes FormulaSpec Parser.
Import ListNotations.
Open Scope string_scope.

(** ** Tokens *)

Lemma isspace_isWs a : isspace a = isWs a.
Proof. destruct a as [[] [] [] [] [] [] [] []]; reflexivity. Qed.

Lemma digit_spec a : digit a = if isDigit a then Some (digitVal a) else None.
Proof. reflexivity. Qed.

Lemma digit_ws a : isspace a = true -> isDigit a = false.
Proof. destruct a as [[] [] [] [] [] [] [] []]; intros H; vm_compute in H; try discriminate; reflexivity. Qed.

Lemma words_skip s : words (skipWs s) = words s.
Proof.
  induction s as [|a s IH]; auto. cbn [skipWs words]. rewrite isspace_isWs.
  destruct (isWs a) eqn:E; auto. cbn [words]. now rewrite E.
Qed.

Definition startsWs (s : string) : Prop :=
  match s with EmptyString => True | String a _ => isspace a = true end.

Lemma takeWord_rest s : startsWs (snd (takeWord s)).
Proof.
  induction s as [|a s IH]; cbn; auto. destruct (isspace a) eqn:E; cbn; auto.
  destruct (takeWord s) as [w r]. exact IH.
Qed.

Lemma takeWord_words s : fst (takeWord s) <> "" -> words s = fst (takeWord s) :: words (snd (takeWord s)).
Proof.
  induction s as [|a s IH]; cbn [takeWord]; [now intros []|].
  destruct (isspace a) eqn:E; [now intros []|]. rewrite isspace_isWs in E.
  destruct (takeWord s) as [w r] eqn:T. cbn [fst snd] in *. intros _. cbn [words]. rewrite E.
  destruct s as [|b s].
  - cbn in T. injection T as <- <-. reflexivity.
  - destruct (isWs b) eqn:Eb.
    + cbn [takeWord] in T. rewrite isspace_isWs, Eb in T. injection T as <- <-.
      reflexivity.
    + rewrite IH; [reflexivity|]. cbn [takeWord] in T. rewrite isspace_isWs, Eb in T.
      destruct (takeWord s). injection T as <- <-. discriminate.
Qed.

Lemma takeWord_empty s : fst (takeWord (skipWs s)) = "" -> skipWs s = "".
Proof.
  induction s as [|a s IH]; auto. cbn [skipWs]. destruct (isspace a) eqn:E; auto.
  cbn [takeWord]. rewrite E. destruct (takeWord s). discriminate.
Qed.

(** Reading a token is reading a word. *)
Lemma words_readToken s : words s =
  if String.eqb (fst (readToken s)) "" then [] else fst (readToken s) :: words (snd (readToken s)).
Proof.
  unfold readToken. rewrite <- words_skip. destruct (String.eqb_spec (fst (takeWord (skipWs s))) "") as [E|N].
  - now rewrite (takeWord_empty s E).
  - now apply takeWord_words.
Qed.

Lemma skipWs_length s : String.length (skipWs s) <= String.length s.
Proof. induction s as [|a s IH]; cbn; auto. destruct (isspace a); cbn; lia. Qed.

Lemma takeWord_length s : String.length s = String.length (fst (takeWord s)) + String.length (snd (takeWord s)).
Proof.
  induction s as [|a s IH]; cbn; auto. destruct (isspace a); cbn; auto.
  destruct (takeWord s). cbn in *. lia.
Qed.

Lemma readToken_length s t r : readToken s = (t, r) -> t <> "" -> String.length r < String.length s.
Proof.
  unfold readToken. intros E H. pose proof (takeWord_length (skipWs s)) as L. rewrite E in L. cbn in L.
  pose proof (skipWs_length s). destruct t; [congruence|]. cbn in L. lia.
Qed.

Lemma takeDigits_length s : forall acc b n b' r, takeDigits acc b s = (n, b', r) ->
  String.length r <= String.length s /\ (b = false -> b' = true -> String.length r < String.length s).
Proof.
  induction s as [|a s IH]; intros acc b n b' r; cbn.
  - intros E. injection E as <- <- <-. split; auto. congruence.
  - destruct (digit a) as [d|].
    + intros E. apply IH in E. destruct E as [E _]. split; lia.
    + intros E. injection E as <- <- <-. split; auto. congruence.
Qed.

Lemma readUnsigned_length s n r : readUnsigned s = Some (n, r) -> String.length r < String.length s.
Proof.
  unfold readUnsigned. pose proof (skipWs_length s) as L. set (s1 := skipWs s) in *.
  set (ns := match s1 with EmptyString => (false, s1) | String a s' => _ end).
  assert (L2 : String.length (snd ns) <= String.length s1).
  { subst ns. destruct s1 as [|a s']; cbn; auto. destruct ((a =? "-")%char); cbn; auto.
    destruct ((a =? "+")%char); cbn; auto. }
  destruct ns as [neg s2]. cbn in L2. destruct (takeDigits 0 false s2) as [[m seen] rest] eqn:T.
  apply takeDigits_length in T. destruct T as [T1 T2].
  destruct seen; cbn; [|discriminate]. destruct (uintBound <=? m)%N; [discriminate|].
  intros E. injection E as <- <-. specialize (T2 eq_refl eq_refl). lia.
Qed.

Lemma takeDigits_word s : forall acc b, allDigits (fst (takeWord s)) = true ->
  takeDigits acc b s = (decimal acc (fst (takeWord s)), b || negb (String.eqb (fst (takeWord s)) ""), snd (takeWord s)).
Proof.
  induction s as [|a s IH]; intros acc b H.
  - cbn. now rewrite orb_false_r.
  - cbn [takeWord] in *. destruct (isspace a) eqn:E.
    + cbn [fst snd takeDigits]. rewrite digit_spec, digit_ws by auto. cbn. now rewrite orb_false_r.
    + destruct (takeWord s) as [w r] eqn:T. cbn [fst snd allDigits] in *. apply andb_true_iff in H.
      destruct H as [H1 H2]. cbn [takeDigits decimal]. rewrite digit_spec, H1, IH by auto.
      cbn. now rewrite orb_true_r.
Qed.

(** Reading a number is reading a word if that word consists of digits. *)
Lemma readUnsigned_word s : fst (readToken s) <> "" -> allDigits (fst (readToken s)) = true ->
  readUnsigned s =
    if (uintBound <=? decimal 0 (fst (readToken s)))%N then None
    else Some (decimal 0 (fst (readToken s)), snd (readToken s)).
Proof.
  unfold readToken, readUnsigned. set (s1 := skipWs s). intros N A.
  assert (NS : match s1 with
        | EmptyString => (false, s1)
        | String a s' => if (a =? "-")%char then (true, s') else if (a =? "+")%char then (false, s') else (false, s1)
        end = (false, s1)).
  { destruct s1 as [|a s'] eqn:E; auto. cbn [takeWord] in N, A.
    destruct (isspace a); [now elim N|]. destruct (takeWord s'). cbn in A.
    apply andb_true_iff in A. destruct A as [A _].
    destruct (Ascii.eqb_spec a "-"); [subst; discriminate|].
    destruct (Ascii.eqb_spec a "+"); [subst; discriminate|]. reflexivity. }
  rewrite NS. rewrite takeDigits_word by auto. cbn [orb negb].
  destruct (String.eqb_spec (fst (takeWord s1)) ""); [contradiction|]. reflexivity.
Qed.

Lemma nthN_spec {A} (l : list A) : forall k, nthN l k = nth_error l (N.to_nat k).
Proof.
  induction l as [|a l IH]; intros k; cbn [nthN].
  - now destruct (N.to_nat k).
  - destruct (N.eqb_spec k 0) as [->|H]; auto. rewrite IH.
    replace (N.to_nat k) with (S (N.to_nat (N.pred k))) by lia. reflexivity.
Qed.

(** ** Variables *)

(** [w] is the name of variable [i]. *)
Definition names_var (names : list string) (w : string) (i : nat) : Prop :=
  nth_error names i = Some w /\ forall j, j < i -> nth_error names j <> Some w.

Lemma findVar_spec names : forall k w i,
  findVar names k w = Some i <-> k <= i /\ names_var names w (i - k).
Proof.
  induction names as [|n names IH]; intros k w i; cbn.
  - split; [discriminate|]. intros [_ [H _]]. destruct (i - k); discriminate.
  - destruct (String.eqb_spec n w) as [->|N].
    + split.
      * intros E. injection E as <-. split; auto. rewrite Nat.sub_diag. split; auto. lia.
      * intros [H [H1 H2]]. f_equal. destruct (i - k) eqn:E; [lia|]. elim (H2 0); auto. lia.
    + rewrite IH. split.
      * intros [H [H1 H2]]. split; [lia|]. replace (i - k) with (S (i - S k)) by lia. split; auto.
        intros [|j] Hj; cbn; [congruence|]. apply H2. lia.
      * intros [H [H1 H2]]. destruct (i - k) as [|d] eqn:E; [cbn in H1; congruence|].
        split; [lia|]. replace (i - S k) with d by lia. split; auto.
        intros j Hj. apply (H2 (S j)). lia.
Qed.

Lemma findVar_0 names w i : findVar names 0 w = Some i <-> names_var names w i.
Proof. rewrite findVar_spec, Nat.sub_0_r. intuition lia. Qed.

Lemma names_var_fun names w i j : names_var names w i -> names_var names w j -> i = j.
Proof.
  intros [H1 H2] [H3 H4]. destruct (Nat.lt_trichotomy i j) as [L|[L|L]]; auto.
  - elim (H4 i L H1).
  - elim (H2 j L H3).
Qed.

(** A permitted variable. *)
Definition var_ok (names : list string) (types allowed : list VariableType) (w : string) (i : nat) : Prop :=
  names_var names w i /\ In (nth i types NoneVariableType) allowed.

Lemma vt_eqb_eq a b : vt_eqb a b = true <-> a = b.
Proof. unfold vt_eqb. destruct (vt_eq_dec a b); split; congruence. Qed.

Lemma allowed_spec t l : existsb (vt_eqb t) l = true <-> In t l.
Proof.
  rewrite existsb_exists. split.
  - intros (x & Hx & E). apply vt_eqb_eq in E. now subst.
  - intros H. exists t. split; auto. now apply vt_eqb_eq.
Qed.

(** ** The recursive function *)

Section ELEMS.
  Variable P : memory -> string -> pres (option BF * string).
  Variable n : N.
  (** The loop over the elements of a buffer. *)
  Fixpoint elemsF (k : nat) (left : N) (vals : list (option BF)) (s : string) : pres (option BF * string) :=
    if (left =? 0)%N then
      if (n =? 0)%N then PUB else POk (recall (mkMem n vals) (n - 1), s)
    else match k with
         | O => PFuel
         | S k => pbind (P (mkMem n vals) s)
                    (fun '(v, s') => elemsF k (N.pred left) (vals ++ [v])%list s')
         end.
End ELEMS.

Section REC.
  Variable names : list string.
  Variable types allowed : list VariableType.

  Local Notation prec := (parseRec names types allowed).

  Definition binF (ord : nat -> bool) (P : memory -> string -> pres (option BF * string)) mem s1 (f : BF -> BF -> BF) :=
    pbind (P mem s1) (fun '(v1, s2) =>
    pbind (P mem s2) (fun '(v2, s3) =>
    pbind (if ord (String.length s1) then op2 f v1 v2 else op2 f v2 v1)
                (fun v => POk (v, s3)))).

  Lemma parseRec_eq ord fuel mem s : prec ord (S fuel) mem s =
    let '(op, s1) := readToken s in
    if String.eqb op "" then PErr PrematureEnd
    else if String.eqb op "|" then binF ord (prec ord fuel) mem s1 bor
    else if String.eqb op "^" then binF ord (prec ord fuel) mem s1 bxor
    else if String.eqb op "&" then binF ord (prec ord fuel) mem s1 band
    else if String.eqb op "!" then
      pbind (prec ord fuel mem s1) (fun '(v, s2) => pbind (op1 bnot v) (fun v => POk (v, s2)))
    else if String.eqb op "1" then POk (Some btrue, s1)
    else if String.eqb op "0" then POk (Some bfalse, s1)
    else if String.eqb op "$" then
      match readUnsigned s1 with
      | None => PErr ExpectedBufferSize
      | Some (n, s2) => elemsF (prec ord fuel) n (S (String.length s2)) n [] s2
      end
    else if String.eqb op "?" then
      match readUnsigned s1 with
      | None => PErr ExpectedRecallNumber
      | Some (k, s2) => if (msize mem <=? k)%N then PErr RecallNotStored else POk (recall mem k, s2)
      end
    else match findVar names 0 op with
         | None => PErr NotFound
         | Some i =>
             if existsb (vt_eqb (nth i types NoneVariableType)) allowed then POk (Some (bvar i), s1)
             else PErr NotAllowed
         end.
  Proof. reflexivity. Qed.

  (** *** The fuel suffices *)
  Definition consumes (s : string) (r : pres (option BF * string)) : Prop :=
    match r with
    | POk (_, s') => String.length s' < String.length s
    | PFuel => False
    | _ => True
    end.

  Lemma elems_fuel P n fuel :
    (forall mem s, String.length s < fuel -> consumes s (P mem s)) ->
    forall k left vals s, String.length s < k -> String.length s < fuel ->
    match elemsF P n k left vals s with
    | POk (_, s') => String.length s' <= String.length s
    | PFuel => False
    | _ => True
    end.
  Proof.
    intros HP. induction k as [|k IH]; intros left vals s Hk Hf; [lia|].
    cbn [elemsF]. destruct (left =? 0)%N; [destruct (n =? 0)%N; auto|].
    specialize (HP (mkMem n vals) s Hf). destruct (P (mkMem n vals) s) as [[v s']|e| |]; cbn in *; auto.
    specialize (IH (N.pred left) (vals ++ [v])%list s' ltac:(lia) ltac:(lia)).
    destruct (elemsF P n k (N.pred left) (vals ++ [v])%list s') as [[v' s'']|e| |]; auto. lia.
  Qed.

  Lemma parseRec_fuel ord fuel : forall mem s, String.length s < fuel -> consumes s (prec ord fuel mem s).
  Proof.
    induction fuel as [|fuel IH]; intros mem s Hf; [lia|].
    rewrite parseRec_eq. destruct (readToken s) as [op s1] eqn:T.
    destruct (String.eqb_spec op "") as [->|Hop]; [exact I|].
    pose proof (readToken_length s op s1 T Hop) as L.
    assert (Hbin : forall f, consumes s (binF ord (prec ord fuel) mem s1 f)).
    { intros f. unfold binF. pose proof (IH mem s1 ltac:(lia)) as H1.
      destruct (prec ord fuel mem s1) as [[v1 s2]|e| |]; cbn in *; auto.
      pose proof (IH mem s2 ltac:(lia)) as H2.
      destruct (prec ord fuel mem s2) as [[v2 s3]|e| |]; cbn in *; auto.
      destruct (ord _); destruct v1, v2; cbn; auto; lia. }
    destruct (String.eqb op "|"); [apply Hbin|].
    destruct (String.eqb op "^"); [apply Hbin|].
    destruct (String.eqb op "&"); [apply Hbin|].
    destruct (String.eqb op "!").
    { pose proof (IH mem s1 ltac:(lia)) as H1.
      destruct (prec ord fuel mem s1) as [[v1 s2]|e| |]; cbn in *; auto. destruct v1; cbn; auto. lia. }
    destruct (String.eqb op "1"); [cbn; lia|].
    destruct (String.eqb op "0"); [cbn; lia|].
    destruct (String.eqb op "$").
    { destruct (readUnsigned s1) as [[n s2]|] eqn:U; [|exact I]. apply readUnsigned_length in U.
      pose proof (elems_fuel (prec ord fuel) n fuel IH (S (String.length s2)) n [] s2 ltac:(lia) ltac:(lia)) as E.
      destruct (elemsF _ _ _ _ _ _) as [[v s']|e| |]; cbn; auto. lia. }
    destruct (String.eqb op "?").
    { destruct (readUnsigned s1) as [[n s2]|] eqn:U; [|exact I]. apply readUnsigned_length in U.
      destruct (_ <=? n)%N; cbn; auto. lia. }
    destruct (findVar names 0 op); cbn; auto. destruct (existsb _ _); cbn; auto.
  Qed.

  (** *** The order of evaluation does not matter *)
  Lemma op2_comm f x y : (forall a b, f a b = f b a) -> op2 f x y = op2 f y x.
  Proof. intros H. destruct x, y; cbn; auto. now rewrite H. Qed.

  Lemma band_comm a b : band a b = band b a.
  Proof. apply bf_ext. intros e. rewrite !eval_and. apply andb_comm. Qed.
  Lemma bor_comm a b : bor a b = bor b a.
  Proof. apply bf_ext. intros e. rewrite !eval_or. apply orb_comm. Qed.
  Lemma bxor_comm a b : bxor a b = bxor b a.
  Proof. apply bf_ext. intros e. rewrite !eval_xor. apply xorb_comm. Qed.

  Lemma elemsF_ext P Q n : (forall mem s, P mem s = Q mem s) ->
    forall k left vals s, elemsF P n k left vals s = elemsF Q n k left vals s.
  Proof.
    intros H. induction k as [|k IH]; intros left vals s; cbn [elemsF]; auto.
    destruct (left =? 0)%N; auto. rewrite H. destruct (Q _ s) as [[v s']|e| |]; cbn; auto.
  Qed.

  Lemma parseRec_ord ord ord' fuel : forall mem s, prec ord fuel mem s = prec ord' fuel mem s.
  Proof.
    induction fuel as [|fuel IH]; intros mem s; [reflexivity|].
    rewrite (parseRec_eq ord), (parseRec_eq ord').
    destruct (readToken s) as [op s1].
    assert (Hbin : forall f, (forall a b, f a b = f b a) ->
       binF ord (prec ord fuel) mem s1 f = binF ord' (prec ord' fuel) mem s1 f).
    { intros f Hf. unfold binF. rewrite IH. destruct (prec ord' fuel mem s1) as [[v1 s2]|e| |]; cbn; auto.
      rewrite IH. destruct (prec ord' fuel mem s2) as [[v2 s3]|e| |]; cbn; auto.
      rewrite (op2_comm f v2 v1 Hf). destruct (ord _), (ord' _); reflexivity. }
    destruct (String.eqb op ""); [reflexivity|].
    destruct (String.eqb op "|"); [apply Hbin, bor_comm|].
    destruct (String.eqb op "^"); [apply Hbin, bxor_comm|].
    destruct (String.eqb op "&"); [apply Hbin, band_comm|].
    destruct (String.eqb op "!"); [now rewrite IH|].
    destruct (String.eqb op "1"); [reflexivity|].
    destruct (String.eqb op "0"); [reflexivity|].
    destruct (String.eqb op "$"); [|reflexivity].
    destruct (readUnsigned s1) as [[n s2]|]; [|reflexivity].
    apply elemsF_ext, IH.
  Qed.

  (** *** The values depend on permitted variables only *)
  Definition okVar (i : nat) : Prop :=
    i < length names /\ In (nth i types NoneVariableType) allowed.

  Definition depV (v : option BF) : Prop := match v with Some b => dep okVar b | None => True end.

  Lemma recall_dep n vals k : Forall depV vals -> depV (recall (mkMem n vals) k).
  Proof.
    intros H. unfold recall. cbn. rewrite nthN_spec. destruct (nth_error vals _) as [v|] eqn:E; [|exact I].
    apply nth_error_In in E. rewrite Forall_forall in H. auto.
  Qed.

  Lemma elems_dep P n :
    (forall mem s v r, Forall depV (mvals mem) -> P mem s = POk (v, r) -> depV v) ->
    forall k left vals s v r, Forall depV vals -> elemsF P n k left vals s = POk (v, r) -> depV v.
  Proof.
    intros HP. induction k as [|k IH]; intros left vals s v r Hv; cbn [elemsF];
      destruct (left =? 0)%N.
    - destruct (n =? 0)%N; [discriminate|]. intros E. injection E as <- <-. now apply recall_dep.
    - discriminate.
    - destruct (n =? 0)%N; [discriminate|]. intros E. injection E as <- <-. now apply recall_dep.
    - destruct (P (mkMem n vals) s) as [[v' s']|e| |] eqn:EP; cbn; try discriminate.
      apply IH. apply Forall_app. split; auto. constructor; auto. eapply HP; [|exact EP]. exact Hv.
  Qed.

  Lemma parseRec_dep ord fuel : forall mem s v r, Forall depV (mvals mem) ->
    prec ord fuel mem s = POk (v, r) -> depV v.
  Proof.
    induction fuel as [|fuel IH]; intros mem s v r Hm; [discriminate|].
    rewrite parseRec_eq. destruct (readToken s) as [op s1].
    destruct (String.eqb op ""); [discriminate|].
    assert (Hbin : forall f, (forall a b, dep okVar a -> dep okVar b -> dep okVar (f a b)) ->
       binF ord (prec ord fuel) mem s1 f = POk (v, r) -> depV v).
    { intros f Hf. unfold binF. destruct (prec ord fuel mem s1) as [[v1 s2]|e| |] eqn:E1; cbn; try discriminate.
      destruct (prec ord fuel mem s2) as [[v2 s3]|e| |] eqn:E2; cbn; try discriminate.
      apply IH in E1; auto. apply IH in E2; auto.
      destruct (ord _), v1, v2; cbn; try discriminate; intros E; injection E as <- <-; cbn; auto. }
    destruct (String.eqb op "|"); [apply Hbin; intros; now apply dep_or|].
    destruct (String.eqb op "^"); [apply Hbin; intros; now apply dep_xor|].
    destruct (String.eqb op "&"); [apply Hbin; intros; now apply dep_and|].
    destruct (String.eqb op "!").
    { destruct (prec ord fuel mem s1) as [[v1 s2]|e| |] eqn:E1; cbn; try discriminate.
      apply IH in E1; auto. destruct v1; cbn; try discriminate; intros E; injection E as <- <-.
      cbn. now apply dep_not. }
    destruct (String.eqb op "1"); [intros E; injection E as <- <-; apply dep_true|].
    destruct (String.eqb op "0"); [intros E; injection E as <- <-; apply dep_false|].
    destruct (String.eqb op "$").
    { destruct (readUnsigned s1) as [[n s2]|]; [|discriminate].
      apply (elems_dep (prec ord fuel) n); auto. }
    destruct (String.eqb op "?").
    { destruct (readUnsigned s1) as [[n s2]|]; [|discriminate].
      destruct (_ <=? n)%N; [discriminate|]. intros E; injection E as <- <-.
      destruct mem. now apply recall_dep. }
    destruct (findVar names 0 op) as [i|] eqn:F; [|discriminate].
    destruct (existsb _ _) eqn:X; [|discriminate]. intros E; injection E as <- <-.
    cbn. apply dep_var. split.
    - apply findVar_0 in F. destruct F as [F _]. apply nth_error_Some. congruence.
    - now apply allowed_spec.
  Qed.

  (** *** Meaning *)

  Definition mval (e : nat -> bool) (v : option BF) : option bool :=
    match v with Some b => Some (eval b e) | None => None end.

  (** After "$" and "?" there is a word of digits, if any. *)
  Definition plain (ws : list string) : Prop :=
    forall p op w q, ws = (p ++ op :: w :: q)%list -> op = "$" \/ op = "?" ->
      w <> "" /\ allDigits w = true.

  Lemma plain_tail w ws : plain (w :: ws) -> plain ws.
  Proof. intros H p op w' q E. apply (H (w :: p) op w' q). now rewrite E. Qed.
  Lemma plain_app ws ws' : plain (ws ++ ws')%list -> plain ws'.
  Proof. induction ws as [|w ws IH]; auto. intros H. apply IH. eapply plain_tail; eauto. Qed.

  Local Notation gramT := (gram (var_ok names types allowed) uintBound true).
  Local Notation gramLT := (gramL (var_ok names types allowed) uintBound true).
  Local Notation gramS := (gram (var_ok names types allowed) uintBound false).
  Local Notation gramLS := (gramL (var_ok names types allowed) uintBound false).

  Definition soundAt (P : memory -> string -> pres (option BF * string)) : Prop :=
    forall mem s v r, P mem s = POk (v, r) -> plain (words s) ->
      exists f ws, words s = (ws ++ words r)%list /\ gramT (N.to_nat (msize mem)) f ws /\
        forall e, den e (map (mval e) (mvals mem)) f = mval e v.

  Lemma recall_mval e n vals k : mval e (recall (mkMem n vals) k) =
    match nth_error (map (mval e) vals) (N.to_nat k) with Some v => v | None => None end.
  Proof.
    unfold recall. cbn. rewrite nthN_spec, nth_error_map. now destruct (nth_error vals _).
  Qed.

  Lemma elems_sound P n : soundAt P ->
    forall k left vals s v r, elemsF P n k left vals s = POk (v, r) -> plain (words s) ->
      (N.of_nat (length vals) + left = n)%N ->
      exists fs ws, words s = (ws ++ words r)%list /\ N.of_nat (length fs) = left /\ n <> 0%N /\
        gramLT (N.to_nat n) (length vals) fs ws /\
        forall e last, (vals <> [] -> last = mval e (List.last vals None)) ->
          denL e fs (map (mval e) vals) last = mval e v.
  Proof.
    intros HP.
    assert (Base : forall vals s v r, (N.of_nat (length vals) + 0 = n)%N ->
       (if (n =? 0)%N then PUB else POk (recall (mkMem n vals) (n - 1), s)) = POk (v, r) ->
       exists fs ws, words s = (ws ++ words r)%list /\ N.of_nat (length fs) = 0%N /\ n <> 0%N /\
        gramLT (N.to_nat n) (length vals) fs ws /\
        forall e last, (vals <> [] -> last = mval e (List.last vals None)) ->
          denL e fs (map (mval e) vals) last = mval e v).
    { intros vals s v r Hn. destruct (N.eqb_spec n 0) as [|Hnz]; [discriminate|].
      intros E. injection E as <- <-. exists [], []. repeat split; auto.
      - constructor.
      - intros e last Hl. cbn. rewrite recall_mval.
        assert (Hne : vals <> []) by (intros ->; cbn in Hn; lia).
        rewrite (Hl Hne). destruct (exists_last Hne) as (vs & x & ->).
        rewrite last_last, map_app, nth_error_app2; rewrite map_length; rewrite app_length in Hn; cbn in Hn; [|lia].
        replace (N.to_nat (n - 1) - length vs) with 0 by lia. reflexivity. }
    induction k as [|k IH]; intros left vals s v r E Hp Hn; cbn [elemsF] in E;
      destruct (N.eqb_spec left 0) as [->|Hl].
    - eapply Base; eauto.
    - discriminate.
    - eapply Base; eauto.
    - destruct (P (mkMem n vals) s) as [[v' s']|e| |] eqn:EP; cbn in E; try discriminate.
      destruct (HP _ _ _ _ EP Hp) as (f & ws & Ew & Hg & Hd). cbn [msize mvals] in *.
      destruct (IH (N.pred left) (vals ++ [v'])%list s' v r E) as (fs & ws' & Ew' & Hlen & Hnz & HgL & HdL).
      + rewrite Ew in Hp. now apply plain_app in Hp.
      + rewrite app_length. cbn. lia.
      + exists (f :: fs), (ws ++ ws')%list. repeat split; auto.
        * now rewrite Ew, Ew', app_assoc.
        * cbn [length]. lia.
        * constructor; auto. rewrite app_length in HgL. cbn in HgL.
          now rewrite Nat.add_1_r in HgL.
        * intros e last _. cbn [denL]. rewrite Hd.
          specialize (HdL e (mval e v')). rewrite map_app in HdL. cbn [map] in HdL.
          apply HdL. intros _. now rewrite last_last.
  Qed.

  Lemma parseRec_sound ord fuel : soundAt (prec ord fuel).
  Proof.
    induction fuel as [|fuel IH]; intros mem s v r E Hp; [discriminate|].
    rewrite parseRec_eq in E. pose proof (words_readToken s) as W.
    destruct (readToken s) as [op s1] eqn:T. cbn [fst snd] in W.
    destruct (String.eqb_spec op "") as [->|Hop]; [discriminate|].
    assert (Hp1 : plain (words s1)) by (rewrite W in Hp; now apply plain_tail in Hp).
    assert (Hbin : forall f F, (forall a b, f a b = f b a) ->
       binF ord (prec ord fuel) mem s1 f = POk (v, r) ->
       (forall m a b ws vs, gramT m a ws -> gramT m b vs -> gramT m (F a b) (op :: ws ++ vs)%list) ->
       (forall e m a b, den e m (F a b) = match den e m a, den e m b with
           | Some x, Some y => Some (eval (f (if x then btrue else bfalse) (if y then btrue else bfalse)) e)
           | _, _ => None end) ->
       (forall a b e, eval (f a b) e = eval (f (if eval a e then btrue else bfalse) (if eval b e then btrue else bfalse)) e) ->
       exists g ws, words s = (ws ++ words r)%list /\ gramT (N.to_nat (msize mem)) g ws /\
        forall e, den e (map (mval e) (mvals mem)) g = mval e v).
    { intros f F Hc EB HG HD HE. unfold binF in EB.
      destruct (prec ord fuel mem s1) as [[v1 s2]|e| |] eqn:E1; cbn in EB; try discriminate.
      destruct (prec ord fuel mem s2) as [[v2 s3]|e| |] eqn:E2; cbn in EB; try discriminate.
      destruct (IH _ _ _ _ E1 Hp1) as (f1 & ws1 & W1 & G1 & D1).
      assert (Hp2 : plain (words s2)) by (rewrite W1 in Hp1; now apply plain_app in Hp1).
      destruct (IH _ _ _ _ E2 Hp2) as (f2 & ws2 & W2 & G2 & D2).
      assert (EV : op2 f v1 v2 = POk v /\ s3 = r).
      { rewrite (op2_comm f v2 v1 Hc) in EB. destruct (ord _), (op2 f v1 v2); cbn in EB; try discriminate;
          injection EB as <- <-; auto. }
      destruct EV as [EV ->]. exists (F f1 f2), (op :: ws1 ++ ws2)%list.
      split; [rewrite W, W1, W2; cbn [app]; now rewrite <- app_assoc|]. split; [now apply HG|].
      intros e. rewrite HD, D1, D2. destruct v1 as [b1|], v2 as [b2|]; cbn in EV; try discriminate.
      injection EV as <-. cbn [mval]. now rewrite (HE b1 b2). }
    destruct (String.eqb_spec op "|") as [->|N1].
    { apply (Hbin bor FOr bor_comm E); try (intros; now constructor).
      - intros e m a b. cbn. destruct (den e m a) as [[]|], (den e m b) as [[]|]; cbn; auto; rewrite eval_or; auto.
      - intros a b e. rewrite !eval_or. now destruct (eval a e), (eval b e). }
    destruct (String.eqb_spec op "^") as [->|N2].
    { apply (Hbin bxor FXor bxor_comm E); try (intros; now constructor).
      - intros e m a b. cbn. destruct (den e m a) as [[]|], (den e m b) as [[]|]; cbn; auto; rewrite eval_xor; auto.
      - intros a b e. rewrite !eval_xor. now destruct (eval a e), (eval b e). }
    destruct (String.eqb_spec op "&") as [->|N3].
    { apply (Hbin band FAnd band_comm E); try (intros; now constructor).
      - intros e m a b. cbn. destruct (den e m a) as [[]|], (den e m b) as [[]|]; cbn; auto; rewrite eval_and; auto.
      - intros a b e. rewrite !eval_and. now destruct (eval a e), (eval b e). }
    destruct (String.eqb_spec op "!") as [->|N4].
    { destruct (prec ord fuel mem s1) as [[v1 s2]|e| |] eqn:E1; cbn in E; try discriminate.
      destruct (IH _ _ _ _ E1 Hp1) as (f1 & ws1 & W1 & G1 & D1).
      destruct v1 as [b1|]; cbn in E; try discriminate. injection E as <- <-.
      exists (FNot f1), ("!" :: ws1). split; [now rewrite W, W1|]. split; [now constructor|].
      intros e. cbn [den]. rewrite D1. cbn. now rewrite eval_not. }
    destruct (String.eqb_spec op "1") as [->|N5].
    { injection E as <- <-. exists FTrue, ["1"]. repeat split; auto. constructor. }
    destruct (String.eqb_spec op "0") as [->|N6].
    { injection E as <- <-. exists FFalse, ["0"]. repeat split; auto. constructor. }
    assert (HW1 : forall n s2, readUnsigned s1 = Some (n, s2) -> op = "$" \/ op = "?" ->
       fst (readToken s1) <> "" /\ allDigits (fst (readToken s1)) = true).
    { intros n s2 U Hop'. pose proof (words_readToken s1) as W1.
      destruct (String.eqb_spec (fst (readToken s1)) "") as [E0|N0].
      - exfalso. apply takeWord_empty in E0. unfold readUnsigned in U. rewrite E0 in U. discriminate.
      - rewrite W, W1 in Hp. apply (Hp [] op _ (words (snd (readToken s1)))); auto. }
    assert (HNum : forall n s2, readUnsigned s1 = Some (n, s2) -> op = "$" \/ op = "?" ->
       exists w, words s1 = w :: words s2 /\ numeral w n /\ (n < uintBound)%N).
    { intros n s2 U Hop'. destruct (HW1 n s2 U Hop') as [H1 H2].
      rewrite readUnsigned_word in U by auto.
      destruct (N.leb_spec uintBound (decimal 0 (fst (readToken s1)))) as [|HL]; [discriminate|].
      injection U as <- <-. exists (fst (readToken s1)). repeat split; auto.
      rewrite words_readToken. now destruct (String.eqb_spec (fst (readToken s1)) ""). }
    destruct (String.eqb_spec op "$") as [->|N7].
    { destruct (readUnsigned s1) as [[n s2]|] eqn:U; [|discriminate].
      destruct (HNum n s2 eq_refl (or_introl eq_refl)) as (w & Ww & Hnum & Hb).
      assert (Hp2 : plain (words s2)) by (rewrite Ww in Hp1; now apply plain_tail in Hp1).
      destruct (elems_sound _ n IH _ _ _ _ _ _ E Hp2 eq_refl) as (fs & ws & We & Hl & Hnz & HgL & HdL).
      exists (FBuf fs), ("$" :: w :: ws). split; [now rewrite W, Ww, We|]. split.
      - apply g_buf with (n := length fs); rewrite ?Hl; auto.
        + lia.
        + replace (length fs) with (N.to_nat n) by lia. exact HgL.
      - intros e. rewrite den_buf. apply (HdL e None). intros H; now elim H. }
    destruct (String.eqb_spec op "?") as [->|N8].
    { destruct (readUnsigned s1) as [[n s2]|] eqn:U; [|discriminate].
      destruct (HNum n s2 eq_refl (or_intror eq_refl)) as (w & Ww & Hnum & Hb).
      destruct (N.leb_spec (msize mem) n) as [|Hlt]; [discriminate|]. injection E as <- <-.
      exists (FRecall (N.to_nat n)), ["?"; w]. split; [now rewrite W, Ww|]. split.
      - constructor; rewrite ?N2Nat.id; auto. lia.
      - intros e. destruct mem as [sz vals]. cbn [den mvals]. now rewrite recall_mval. }
    destruct (findVar names 0 op) as [i|] eqn:F; [|discriminate].
    destruct (existsb _ _) eqn:X; [|discriminate]. injection E as <- <-.
    exists (FVar i), [op]. split; auto. split.
    - constructor.
      + unfold reserved. cbn [existsb].
        repeat match goal with |- context[String.eqb op ?x] => destruct (String.eqb_spec op x); [congruence|] end.
        reflexivity.
      + split; [now apply findVar_0|now apply allowed_spec].
    - intros e. cbn. now rewrite eval_var.
  Qed.

  (** *** Acceptance *)

  Lemma eqb_false x y : x <> y -> String.eqb x y = false.
  Proof. intros H. now apply String.eqb_neq. Qed.

  Lemma words_cons s w ws : words s = w :: ws ->
    fst (readToken s) = w /\ words (snd (readToken s)) = ws /\ w <> "" /\
    String.length (snd (readToken s)) < String.length s.
  Proof.
    rewrite words_readToken. destruct (readToken s) as [t r] eqn:T. cbn [fst snd].
    destruct (String.eqb_spec t "") as [|N]; [discriminate|]. intros E. injection E as <- <-.
    repeat split; auto. eapply readToken_length; eauto.
  Qed.

  Lemma readUnsigned_numeral s w ws n : words s = w :: ws -> numeral w n -> (n < uintBound)%N ->
    exists r, readUnsigned s = Some (n, r) /\ words r = ws.
  Proof.
    intros E (H1 & H2 & H3) Hb. destruct (words_cons s w ws E) as (E1 & E2 & E3 & _).
    exists (snd (readToken s)). rewrite readUnsigned_word; rewrite ?E1; auto. rewrite H3.
    destruct (N.leb_spec uintBound n); [lia|]. auto.
  Qed.

  Definition defd (vals : list (option BF)) : Prop := Forall (fun v => v <> None) vals.

  Scheme gram_ind2 := Minimality for gram Sort Prop
    with gramL_ind2 := Minimality for gramL Sort Prop.
  Combined Scheme gram_mutind from gram_ind2, gramL_ind2.

  Lemma gramS_accepted ord :
    (forall m f ws, gramS m f ws -> forall fuel mem s tl, words s = (ws ++ tl)%list ->
       String.length s < fuel -> m = length (mvals mem) -> (N.of_nat m <= msize mem)%N -> defd (mvals mem) ->
       exists b r, prec ord fuel mem s = POk (Some b, r) /\ words r = tl /\
         forall e, den e (map (mval e) (mvals mem)) f = Some (eval b e)) /\
    (forall n i fs ws, gramLS n i fs ws -> forall fuel k vals s tl, words s = (ws ++ tl)%list ->
       String.length s < fuel -> String.length s < k -> i = length vals -> i + length fs = n -> n <> 0 ->
       defd vals ->
       exists b r, elemsF (prec ord fuel) (N.of_nat n) k (N.of_nat (length fs)) vals s = POk (Some b, r) /\
         words r = tl /\
         forall e last, (vals <> [] -> last = mval e (List.last vals None)) ->
           denL e fs (map (mval e) vals) last = Some (eval b e)).
  Proof.
    assert (Bin : forall f F op, reserved op = true -> forall m g h ws vs,
      (forall a b, f a b = f b a) ->
      (forall fuel mem s1, prec ord (S fuel) mem s1 =
         (if String.eqb (fst (readToken s1)) op then binF ord (prec ord fuel) mem (snd (readToken s1)) f
          else prec ord (S fuel) mem s1)) ->
      (forall e mm, den e mm (F g h) = lift2 (fun x y => eval (f (if x then btrue else bfalse) (if y then btrue else bfalse)) e)
           (den e mm g) (den e mm h)) ->
      (forall a b e, eval (f a b) e = eval (f (if eval a e then btrue else bfalse) (if eval b e then btrue else bfalse)) e) ->
      (forall fuel mem s tl, words s = (ws ++ tl)%list ->
       String.length s < fuel -> m = length (mvals mem) -> (N.of_nat m <= msize mem)%N -> defd (mvals mem) ->
       exists b r, prec ord fuel mem s = POk (Some b, r) /\ words r = tl /\
         forall e, den e (map (mval e) (mvals mem)) g = Some (eval b e)) ->
      (forall fuel mem s tl, words s = (vs ++ tl)%list ->
       String.length s < fuel -> m = length (mvals mem) -> (N.of_nat m <= msize mem)%N -> defd (mvals mem) ->
       exists b r, prec ord fuel mem s = POk (Some b, r) /\ words r = tl /\
         forall e, den e (map (mval e) (mvals mem)) h = Some (eval b e)) ->
      forall fuel mem s tl, words s = ((op :: ws ++ vs) ++ tl)%list ->
       String.length s < fuel -> m = length (mvals mem) -> (N.of_nat m <= msize mem)%N -> defd (mvals mem) ->
       exists b r, prec ord fuel mem s = POk (Some b, r) /\ words r = tl /\
         forall e, den e (map (mval e) (mvals mem)) (F g h) = Some (eval b e)).
    { intros f F op Hres m g h ws vs Hc Heq HD HE IHg IHh fuel mem s tl W Hf Hm Hs Hd.
      destruct fuel as [|fuel]; [lia|]. cbn [app] in W.
      destruct (words_cons _ _ _ W) as (E1 & E2 & E3 & E4).
      rewrite Heq, E1, String.eqb_refl. unfold binF. rewrite <- app_assoc in E2.
      set (s1 := snd (readToken s)) in *.
      destruct (IHg fuel mem s1 (vs ++ tl)%list E2 ltac:(lia) Hm Hs Hd) as (b1 & r1 & P1 & W1 & D1).
      pose proof (parseRec_fuel ord fuel mem s1 ltac:(lia)) as L1. rewrite P1 in *. cbn in L1.
      destruct (IHh fuel mem r1 tl W1 ltac:(lia) Hm Hs Hd) as (b2 & r2 & P2 & W2 & D2).
      cbn [pbind]. rewrite P2. cbn [pbind].
      exists (f b1 b2), r2. split; [|split; auto].
      - destruct (ord _); cbn; auto. now rewrite (Hc b2 b1).
      - intros e. rewrite HD, D1, D2. cbn. now rewrite <- HE. }
    assert (Rd : forall fuel mem s1 op f, reserved op = true ->
      (forall s2, readToken s1 = (op, s2) -> prec ord (S fuel) mem s1 = binF ord (prec ord fuel) mem s2 f) ->
      prec ord (S fuel) mem s1 =
         (if String.eqb (fst (readToken s1)) op then binF ord (prec ord fuel) mem (snd (readToken s1)) f
          else prec ord (S fuel) mem s1)).
    { intros fuel mem s1 op f _ H. destruct (String.eqb_spec (fst (readToken s1)) op) as [<-|]; auto.
      apply H. now destruct (readToken s1). }
    apply gram_mutind.
    - intros m fuel mem s tl W Hf _ _ _. destruct fuel as [|fuel]; [lia|].
      destruct (words_cons _ _ _ W) as (E1 & E2 & E3 & E4). rewrite parseRec_eq.
      destruct (readToken s) as [op s1]. cbn [fst snd] in *. subst op.
      exists btrue, s1. repeat split; auto.
    - intros m fuel mem s tl W Hf _ _ _. destruct fuel as [|fuel]; [lia|].
      destruct (words_cons _ _ _ W) as (E1 & E2 & E3 & E4). rewrite parseRec_eq.
      destruct (readToken s) as [op s1]. cbn [fst snd] in *. subst op.
      exists bfalse, s1. repeat split; auto.
    - intros m w i Hr [Hv Ha] fuel mem s tl W Hf _ _ _. destruct fuel as [|fuel]; [lia|].
      destruct (words_cons _ _ _ W) as (E1 & E2 & E3 & E4). rewrite parseRec_eq.
      destruct (readToken s) as [op s1]. cbn [fst snd] in *. subst op.
      unfold reserved in Hr. cbn [existsb] in Hr. rewrite !orb_false_iff in Hr.
      destruct Hr as (R1 & R2 & R3 & R4 & R5 & R6 & R7 & R8 & _).
      rewrite R1, R2, R3, R4, R5, R6, R7, R8, (eqb_false w "" E3).
      apply findVar_0 in Hv. rewrite Hv. apply allowed_spec in Ha. rewrite Ha.
      exists (bvar i), s1. repeat split; auto. intros e. cbn. now rewrite eval_var.
    - intros m f ws _ IH fuel mem s tl W Hf Hm Hs Hd. destruct fuel as [|fuel]; [lia|].
      cbn [app] in W. destruct (words_cons _ _ _ W) as (E1 & E2 & E3 & E4). rewrite parseRec_eq.
      destruct (readToken s) as [op s1]. cbn [fst snd] in *. subst op.
      cbn [String.eqb Ascii.eqb Bool.eqb].
      destruct (IH fuel mem s1 tl E2 ltac:(lia) Hm Hs Hd) as (b & r & P & Wr & D).
      rewrite P. cbn. exists (bnot b), r. repeat split; auto. intros e. rewrite D. cbn. now rewrite eval_not.
    - intros m f g ws vs _ IH1 _ IH2. apply (Bin band FAnd "&" eq_refl m f g ws vs band_comm); auto.
      + intros fuel mem s1. apply Rd; auto. intros s2 E. rewrite parseRec_eq, E. reflexivity.
      + intros e mm. cbn. destruct (den e mm f) as [[]|], (den e mm g) as [[]|]; cbn; auto; now rewrite eval_and.
      + intros a b e. rewrite !eval_and. now destruct (eval a e), (eval b e).
    - intros m f g ws vs _ IH1 _ IH2. apply (Bin bor FOr "|" eq_refl m f g ws vs bor_comm); auto.
      + intros fuel mem s1. apply Rd; auto. intros s2 E. rewrite parseRec_eq, E. reflexivity.
      + intros e mm. cbn. destruct (den e mm f) as [[]|], (den e mm g) as [[]|]; cbn; auto; now rewrite eval_or.
      + intros a b e. rewrite !eval_or. now destruct (eval a e), (eval b e).
    - intros m f g ws vs _ IH1 _ IH2. apply (Bin bxor FXor "^" eq_refl m f g ws vs bxor_comm); auto.
      + intros fuel mem s1. apply Rd; auto. intros s2 E. rewrite parseRec_eq, E. reflexivity.
      + intros e mm. cbn. destruct (den e mm f) as [[]|], (den e mm g) as [[]|]; cbn; auto; now rewrite eval_xor.
      + intros a b e. rewrite !eval_xor. now destruct (eval a e), (eval b e).
    - intros m w n fs ws Hnum Hb Hl Hnz _ IH fuel mem s tl W Hf _ _ _. destruct fuel as [|fuel]; [lia|].
      cbn [app] in W. destruct (words_cons _ _ _ W) as (E1 & E2 & E3 & E4). rewrite parseRec_eq.
      destruct (readToken s) as [op s1]. cbn [fst snd] in *. subst op.
      cbn [String.eqb Ascii.eqb Bool.eqb].
      destruct (readUnsigned_numeral s1 w _ _ E2 Hnum Hb) as (s2 & U & W2). rewrite U.
      pose proof (readUnsigned_length _ _ _ U).
      destruct (IH fuel (S (String.length s2)) [] s2 tl W2 ltac:(lia) ltac:(lia) eq_refl Hl Hnz ltac:(constructor))
        as (b & r & P & Wr & D).
      rewrite Hl in P. rewrite P. exists b, r. repeat split; auto.
      intros e. rewrite den_buf. apply (D e None). intros Hne; now elim Hne.
    - intros m w k Hnum Hb Hk fuel mem s tl W Hf Hm Hs Hd. destruct fuel as [|fuel]; [lia|].
      cbn [app] in W. destruct (words_cons _ _ _ W) as (E1 & E2 & E3 & E4). rewrite parseRec_eq.
      destruct (readToken s) as [op s1]. cbn [fst snd] in *. subst op.
      cbn [String.eqb Ascii.eqb Bool.eqb].
      destruct (readUnsigned_numeral s1 w _ _ E2 Hnum Hb) as (s2 & U & W2). rewrite U.
      destruct (N.leb_spec (msize mem) (N.of_nat k)) as [HL|HL]; [lia|].
      destruct mem as [sz vals]. cbn [mvals msize] in *. subst m.
      unfold recall. cbn [mvals]. rewrite nthN_spec, Nat2N.id.
      destruct (nth_error vals k) as [v|] eqn:E.
      + assert (Hv : v <> None).
        { unfold defd in Hd. rewrite Forall_forall in Hd. apply Hd. eapply nth_error_In; eauto. }
        destruct v as [b|]; [|congruence]. exists b, s2. repeat split; auto.
        intros e. cbn. now rewrite nth_error_map, E.
      + exfalso. apply nth_error_None in E. lia.
    - intros n i fuel k vals s tl W Hf Hk Hi Hn Hnz Hd. cbn [length app] in *.
      destruct k as [|k]; [lia|]. cbn [elemsF N.of_nat N.eqb].
      destruct (N.eqb_spec (N.of_nat n) 0) as [|Hz]; [lia|].
      assert (Hne : vals <> []) by (intros ->; cbn in Hi; lia).
      destruct (exists_last Hne) as (vs & x & ->). rewrite app_length in Hi. cbn in Hi.
      unfold defd in Hd. apply Forall_app in Hd. destruct Hd as [_ Hx]. inversion Hx as [|? ? Hx' _]; subst.
      destruct x as [b|]; [|congruence].
      exists b, s. split; [|split; auto].
      + unfold recall. cbn [mvals]. rewrite nthN_spec, nth_error_app2 by lia.
        replace (N.to_nat (N.of_nat (length vs + 1 + 0) - 1) - length vs) with 0 by lia. reflexivity.
      + intros e last Hl. cbn. rewrite Hl by auto. now rewrite last_last.
    - intros n i f fs ws vs _ IHf _ IHL fuel k vals s tl W Hf Hk Hi Hn Hnz Hd.
      destruct k as [|k]; [lia|]. cbn [elemsF length] in *.
      destruct (N.eqb_spec (N.of_nat (S (length fs))) 0) as [|Hz]; [lia|].
      rewrite <- app_assoc in W.
      destruct (IHf fuel (mkMem (N.of_nat n) vals) s (vs ++ tl)%list W Hf Hi ltac:(cbn; lia) Hd)
        as (b & r & P & Wr & D).
      pose proof (parseRec_fuel ord fuel (mkMem (N.of_nat n) vals) s Hf) as L. rewrite P in *. cbn in L.
      cbn [pbind]. replace (N.pred (N.of_nat (S (length fs)))) with (N.of_nat (length fs)) by lia.
      destruct (IHL fuel k (vals ++ [Some b])%list r tl Wr) as (b' & r' & P' & W' & D'); try lia.
      + rewrite app_length. cbn. lia.
      + apply Forall_app. split; auto. constructor; [discriminate|constructor].
      + rewrite P'. exists b', r'. repeat split; auto.
        intros e last _. cbn [denL]. cbn [mvals] in D. rewrite D.
        specialize (D' e (Some (eval b e))). rewrite map_app in D'. cbn [map mval] in D'.
        apply D'. intros _. now rewrite last_last.
  Qed.
End REC.

(** ** Formula lines *)

Section LINE.
  Variable names : list string.
  Variable types allowed : list VariableType.

  Local Notation gramT := (gram (var_ok names types allowed) uintBound true).
  Local Notation gramS := (gram (var_ok names types allowed) uintBound false).
  Local Notation parse := (parseFormula names types allowed).

  Lemma parse_ord ord ord' line : parse ord line = parse ord' line.
  Proof. unfold parseFormula. now rewrite (parseRec_ord _ _ _ ord ord'). Qed.

  Lemma parse_no_fuel ord line : parse ord line <> PFuel.
  Proof.
    unfold parseFormula. pose proof (parseRec_fuel names types allowed ord (S (String.length line)) (mkMem 0 []) line ltac:(lia)) as H.
    destruct (parseRec _ _ _ _ _ _ _) as [[v r]|e| |]; cbn in *; try congruence; try contradiction.
    destruct (String.eqb _ _); congruence.
  Qed.

  Lemma readToken_words_nil s : fst (readToken s) = "" -> words s = [].
  Proof. intros E. now rewrite words_readToken, E. Qed.

  Lemma words_nil_readToken s : words s = [] -> fst (readToken s) = "".
  Proof.
    rewrite words_readToken. destruct (String.eqb_spec (fst (readToken s)) ""); auto. discriminate.
  Qed.

  Lemma parse_sound ord line v : parse ord line = POk v -> plain (words line) ->
    exists f, gramT 0 f (words line) /\ forall e, den e [] f = mval e v.
  Proof.
    unfold parseFormula. destruct (parseRec _ _ _ _ _ _ _) as [[v' r]|e| |] eqn:E; cbn; try discriminate.
    destruct (String.eqb_spec (fst (readToken r)) "") as [R|]; [|discriminate]. intros E'. injection E' as ->.
    intros Hp. destruct (parseRec_sound _ _ _ _ _ _ _ _ _ E Hp) as (f & ws & W & G & D).
    exists f. rewrite W, (readToken_words_nil r R), app_nil_r. split; auto.
  Qed.

  Lemma parse_accepts ord line f : gramS 0 f (words line) ->
    exists b, parse ord line = POk (Some b) /\ forall e, den e [] f = Some (eval b e).
  Proof.
    intros G. destruct (gramS_accepted names types allowed ord) as [A _].
    destruct (A 0 f _ G (S (String.length line)) (mkMem 0 []) line [] ltac:(now rewrite app_nil_r) ltac:(lia)
      eq_refl ltac:(reflexivity) ltac:(constructor)) as (b & r & P & W & D).
    exists b. split; auto. unfold parseFormula. rewrite P. cbn. now rewrite (words_nil_readToken r W).
  Qed.

  Lemma parse_dep ord line b : parse ord line = POk (Some b) -> dep (okVar names types allowed) b.
  Proof.
    unfold parseFormula. destruct (parseRec _ _ _ _ _ _ _) as [[v' r]|e| |] eqn:E; cbn; try discriminate.
    destruct (String.eqb _ _); [|discriminate]. intros E'. injection E' as ->.
    apply (parseRec_dep _ _ _ _ _ (mkMem 0 []) _ _ _ (Forall_nil _) E).
  Qed.

  (** *** Lines without buffers *)

  Lemma parseRec_nobuf ord fuel : forall mem s, msize mem = 0%N -> ~ In "$" (words s) ->
    match parseRec names types allowed ord fuel mem s with
    | POk (v, r) => exists b f ws, v = Some b /\ words s = (ws ++ words r)%list /\ gramS 0 f ws
    | PUB => False
    | _ => True
    end.
  Proof.
    induction fuel as [|fuel IH]; intros mem s Hm Hd; [exact I|].
    rewrite parseRec_eq. pose proof (words_readToken s) as W.
    destruct (readToken s) as [op s1] eqn:T. cbn [fst snd] in W.
    destruct (String.eqb_spec op "") as [->|Hop]; [exact I|].
    assert (Hd1 : op <> "$" /\ ~ In "$" (words s1)).
    { rewrite W in Hd. split; intros X; apply Hd; [left|right]; auto. }
    destruct Hd1 as [Hop2 Hd1].
    assert (Hbin : forall f F, 
       (forall m a b ws vs, gramS m a ws -> gramS m b vs -> gramS m (F a b) (op :: ws ++ vs)%list) ->
       match binF ord (parseRec names types allowed ord fuel) mem s1 f with
       | POk (v, r) => exists b f ws, v = Some b /\ words s = (ws ++ words r)%list /\ gramS 0 f ws
       | PUB => False
       | _ => True
       end).
    { intros f F HG. unfold binF. pose proof (IH mem s1 Hm Hd1) as H1.
      destruct (parseRec _ _ _ _ fuel mem s1) as [[v1 s2]|e| |]; cbn [pbind]; auto.
      destruct H1 as (b1 & f1 & ws1 & -> & W1 & G1).
      assert (Hd2 : ~ In "$" (words s2)).
      { rewrite W1 in Hd1. intros X. apply Hd1, in_app_iff. now right. }
      pose proof (IH mem s2 Hm Hd2) as H2.
      destruct (parseRec _ _ _ _ fuel mem s2) as [[v2 s3]|e| |]; cbn [pbind]; auto.
      destruct H2 as (b2 & f2 & ws2 & -> & W2 & G2). cbn [op2].
      destruct (ord _); cbn [pbind]; eexists _, (F f1 f2), (op :: ws1 ++ ws2)%list;
        (split; [reflexivity|split; [rewrite W, W1, W2; cbn [app]; now rewrite <- app_assoc|now apply HG]]). }
    destruct (String.eqb_spec op "|") as [->|N1]; [apply (Hbin bor FOr); intros; now constructor|].
    destruct (String.eqb_spec op "^") as [->|N2]; [apply (Hbin bxor FXor); intros; now constructor|].
    destruct (String.eqb_spec op "&") as [->|N3]; [apply (Hbin band FAnd); intros; now constructor|].
    destruct (String.eqb_spec op "!") as [->|N4].
    { pose proof (IH mem s1 Hm Hd1) as H1.
      destruct (parseRec _ _ _ _ fuel mem s1) as [[v1 s2]|e| |]; cbn [pbind]; auto.
      destruct H1 as (b1 & f1 & ws1 & -> & W1 & G1). cbn.
      exists (bnot b1), (FNot f1), ("!" :: ws1). split; auto. split; [now rewrite W, W1|now constructor]. }
    destruct (String.eqb_spec op "1") as [->|N5].
    { exists btrue, FTrue, ["1"]. repeat split; auto. constructor. }
    destruct (String.eqb_spec op "0") as [->|N6].
    { exists bfalse, FFalse, ["0"]. repeat split; auto. constructor. }
    destruct (String.eqb_spec op "$") as [->|N7]; [now elim Hop2|].
    destruct (String.eqb_spec op "?") as [->|N8].
    { destruct (readUnsigned s1) as [[n s2]|]; auto. rewrite Hm.
      destruct (N.leb_spec 0 n); [auto|lia]. }
    destruct (findVar names 0 op) as [i|] eqn:F; auto.
    destruct (existsb _ _) eqn:X; auto.
    exists (bvar i), (FVar i), [op]. split; auto. split; auto.
    constructor.
    - unfold reserved. cbn [existsb].
      repeat match goal with |- context[String.eqb op ?x] => destruct (String.eqb_spec op x); [congruence|] end.
      reflexivity.
    - split; [now apply findVar_0|now apply allowed_spec].
  Qed.

  Lemma parse_nobuf ord line : ~ In "$" (words line) ->
    match parse ord line with
    | POk v => exists b f, v = Some b /\ gramS 0 f (words line)
    | PErr _ => ~ exists f, gramS 0 f (words line)
    | _ => False
    end.
  Proof.
    intros Hd. pose proof (parseRec_nobuf ord (S (String.length line)) (mkMem 0 []) line eq_refl Hd) as H.
    pose proof (parse_no_fuel ord line) as NF.
    destruct (parse ord line) as [v|e| |] eqn:E; auto.
    - unfold parseFormula in E. destruct (parseRec _ _ _ _ _ _ _) as [[v' r]|e| |]; cbn in E; try discriminate.
      destruct (String.eqb_spec (fst (readToken r)) "") as [R|]; [|discriminate]. injection E as ->.
      destruct H as (b & f & ws & -> & W & G). exists b, f. split; auto.
      now rewrite W, (readToken_words_nil r R), app_nil_r.
    - intros (f & G). destruct (parse_accepts ord line f G) as (b & P & _). congruence.
    - unfold parseFormula in E. destruct (parseRec _ _ _ _ _ _ _) as [[v' r]|e| |]; cbn in E; try discriminate; auto.
      destruct (String.eqb _ _); discriminate.
  Qed.
End LINE.

(** ** The grammar is unambiguous *)

Section UNIQUE.
  Variable var : string -> nat -> Prop.
  Hypothesis Hvar : forall w i j, var w i -> var w j -> i = j.
  Variable bound : N.
  Variable loose : bool.

  Lemma numeral_fun w n m : numeral w n -> numeral w m -> n = m.
  Proof. intros (_ & _ & <-) (_ & _ & <-). reflexivity. Qed.

  Lemma gram_prefix :
    (forall m f ws, gram var bound loose m f ws -> forall m' f' ws' tl tl',
       gram var bound loose m' f' ws' -> (ws ++ tl = ws' ++ tl')%list -> f = f' /\ ws = ws' /\ tl = tl') /\
    (forall n i fs ws, gramL var bound loose n i fs ws -> forall n' i' fs' ws' tl tl',
       gramL var bound loose n' i' fs' ws' -> length fs = length fs' -> (ws ++ tl = ws' ++ tl')%list ->
       fs = fs' /\ ws = ws' /\ tl = tl').
  Proof.
    apply (gram_mutind var bound loose
      (fun m f ws => forall m' f' ws' tl tl',
         gram var bound loose m' f' ws' -> (ws ++ tl = ws' ++ tl')%list -> f = f' /\ ws = ws' /\ tl = tl')
      (fun n i fs ws => forall n' i' fs' ws' tl tl',
       gramL var bound loose n' i' fs' ws' -> length fs = length fs' -> (ws ++ tl = ws' ++ tl')%list ->
       fs = fs' /\ ws = ws' /\ tl = tl')).
    - intros m m' f' ws' tl tl' G E. inversion G; subst; inversion E; subst; try discriminate; auto.
    - intros m m' f' ws' tl tl' G E. inversion G; subst; inversion E; subst; try discriminate; auto.
    - intros m w i Hr Hv m' f' ws' tl tl' G E.
      inversion G; subst; inversion E; subst; try discriminate.
      repeat split; auto. f_equal. eauto.
    - intros m f ws _ IH m' f' ws' tl tl' G E.
      inversion G; subst; inversion E; subst; try discriminate.
      match goal with A : gram _ _ _ _ _ _, B : (_ ++ _ = _ ++ _)%list |- _ =>
        destruct (IH _ _ _ _ _ A B) as (-> & -> & ->) end. auto.
    - intros m f g ws vs _ IH1 _ IH2 m' f' ws' tl tl' G E.
      inversion G as [| |? ? ? Hr| |? ? ? ? ? G1 G2|? ? ? ? ? G1 G2|? ? ? ? ? G1 G2| |]; subst; inversion E; subst; try discriminate.
      match goal with B : (_ ++ _ = _ ++ _)%list |- _ => rewrite <- !app_assoc in B;
        destruct (IH1 _ _ _ _ _ G1 B) as (-> & -> & E') end.
      destruct (IH2 _ _ _ _ _ G2 E') as (-> & -> & ->). auto.
    - intros m f g ws vs _ IH1 _ IH2 m' f' ws' tl tl' G E.
      inversion G as [| |? ? ? Hr| |? ? ? ? ? G1 G2|? ? ? ? ? G1 G2|? ? ? ? ? G1 G2| |]; subst; inversion E; subst; try discriminate.
      match goal with B : (_ ++ _ = _ ++ _)%list |- _ => rewrite <- !app_assoc in B;
        destruct (IH1 _ _ _ _ _ G1 B) as (-> & -> & E') end.
      destruct (IH2 _ _ _ _ _ G2 E') as (-> & -> & ->). auto.
    - intros m f g ws vs _ IH1 _ IH2 m' f' ws' tl tl' G E.
      inversion G as [| |? ? ? Hr| |? ? ? ? ? G1 G2|? ? ? ? ? G1 G2|? ? ? ? ? G1 G2| |]; subst; inversion E; subst; try discriminate.
      match goal with B : (_ ++ _ = _ ++ _)%list |- _ => rewrite <- !app_assoc in B;
        destruct (IH1 _ _ _ _ _ G1 B) as (-> & -> & E') end.
      destruct (IH2 _ _ _ _ _ G2 E') as (-> & -> & ->). auto.
    - intros m w n fs ws Hn Hb Hl Hnz _ IH m' f' ws' tl tl' G E.
      inversion G; subst; inversion E; subst; try discriminate.
      match goal with A : numeral ?x _, B : numeral ?x _ |- _ => pose proof (numeral_fun _ _ _ A B) as EN end.
      apply Nat2N.inj in EN.
      match goal with A : gramL _ _ _ _ _ _ _, B : (_ ++ _ = _ ++ _)%list |- _ =>
        destruct (IH _ _ _ _ _ _ A EN B) as (-> & -> & ->) end. auto.
    - intros m w k Hn Hb Hk m' f' ws' tl tl' G E.
      inversion G; subst; inversion E; subst; try discriminate.
      match goal with A : numeral ?x _, B : numeral ?x _ |- _ => pose proof (numeral_fun _ _ _ A B) as EN end.
      apply Nat2N.inj in EN. subst. auto.
    - intros n i n' i' fs' ws' tl tl' G L E. inversion G; subst; [auto|discriminate].
    - intros n i f fs ws vs _ IHf _ IHL n' i' fs' ws' tl tl' G L E.
      inversion G as [|n0 i0 f0 fs0 ws0 vs0 G1 G2]; subst; [discriminate|]. rewrite <- !app_assoc in E.
      destruct (IHf _ _ _ _ _ G1 E) as (-> & -> & E'). cbn in L. injection L as L.
      destruct (IHL _ _ _ _ _ _ G2 L E') as (-> & -> & ->). auto.
  Qed.

  Lemma gram_unique m f f' ws : gram var bound loose m f ws -> gram var bound loose m f' ws -> f = f'.
  Proof.
    intros G G'. destruct gram_prefix as [P _]. now destruct (P _ _ _ G _ _ _ [] [] G' eq_refl).
  Qed.
End UNIQUE.
