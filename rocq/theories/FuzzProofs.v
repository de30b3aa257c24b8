(** * Proofs: the random specifications *)

From Coq Require Import String Ascii List Bool Arith NArith ZArith Lia.
From Verif Require Import FormulaSpec Parser Spec FileSpec Execute Explicit ParserProofs FileProofs OutputProofs SymbolicProofs EstimatorText MonoProofs
  MinCore MinCoreProofs StructuredProofs StructDeclProofs StructLineProofs Aig AigSpec AigProofs AigFile Fuzz.
Import ListNotations.
Local Open Scope string_scope.
Local Open Scope list_scope.

(** ** Lines *)

Definition edge (s : string) : Prop :=
  (exists a r, s = String a r /\ isWs a = false /\ (a =? "#")%char = false /\ (a =? "[")%char = false) /\
  (exists r b, s = (r ++ String b "")%string /\ isWs b = false) /\ noNl s.
Lemma edge_app x m p : edge x -> edge p -> noNl m -> edge (x ++ m ++ p)%string.
Proof.
  intros ((a & r & -> & A) & _ & N1) (_ & (q & b & -> & B) & N2) N3. split; [|split].
  - exists a. eexists. split; [reflexivity|auto].
  - exists (String a r ++ m ++ q)%string, b. split; [now rewrite !append_assoc|auto].
  - apply noNl_app; [exact N1|]. now apply noNl_app.
Qed.
Lemma lasc_app s t : list_ascii_of_string (s ++ t)%string = list_ascii_of_string s ++ list_ascii_of_string t.
Proof. induction s; cbn; congruence. Qed.
Lemma edge_strip s : edge s -> strip s = s.
Proof.
  intros ((a & r & E1 & A & _) & (q & b & E2 & B) & _). unfold strip.
  assert (D1 : dropWs (list_ascii_of_string s) = list_ascii_of_string s) by (rewrite E1; cbn; now rewrite A).
  assert (D2 : dropWs (rev (list_ascii_of_string s)) = rev (list_ascii_of_string s)) by (rewrite E2, lasc_app, rev_app_distr; cbn; now rewrite B).
  now rewrite D1, D2, rev_involutive, string_of_list_ascii_of_string.
Qed.
Lemma edge_good s : edge s -> goodLine s.
Proof. intros E. split; [now apply edge_strip|]. destruct E as ((a & r & -> & _ & A) & _ & N). split; auto. exists a, r. tauto. Qed.

(** A word, its first character. *)
Definition wordy (w : string) : Prop := edge w /\ words w = [w].
Lemma wordy_join w : wordy w -> join (words w) = w.
Proof. intros [_ ->]. reflexivity. Qed.
Lemma last_char s : s <> ""%string -> exists r b, s = (r ++ String b "")%string.
Proof.
  induction s as [|a s IH]; [easy|]. intros _. destruct s as [|c s]; [exists ""%string, a; reflexivity|].
  destruct IH as (r & b & E); [discriminate|]. exists (String a r), b. cbn. now rewrite <- E.
Qed.
Lemma noWs_noNl s : noWs s = true -> noNl s.
Proof.
  unfold noWs. intros H a Ha. induction s as [|c s IH]; [destruct Ha|]. cbn in H. apply andb_prop in H. destruct H as [H1 H2].
  destruct Ha as [<-|Ha]; [intros ->; discriminate|auto].
Qed.
Lemma wordy_noWs a r : noWs (String a r) = true -> (a =? "#")%char = false -> (a =? "[")%char = false -> wordy (String a r).
Proof.
  intros W A1 A2. split; [|now apply words_noWs]. split; [|split].
  - exists a, r. repeat split; auto. unfold noWs in W. cbn in W. apply andb_prop in W. destruct W as [W _]. now apply negb_true_iff.
  - destruct (last_char (String a r)) as (q & b & E); [discriminate|]. exists q, b. split; [exact E|]. rewrite E, noWs_app in W.
    apply andb_prop in W. destruct W as [_ W]. unfold noWs in W. cbn in W. rewrite andb_true_r in W. now apply negb_true_iff.
  - now apply noWs_noNl.
Qed.
Lemma noWs_show n : noWs (showNat n) = true.
Proof. apply noWs_uint. Qed.
Lemma wordy_show n : wordy (showNat n).
Proof.
  destruct (numeral_show n) as (N & D & _). pose proof (noWs_show n) as W. destruct (showNat n) as [|a r]; [now elim N|].
  cbn in D. apply andb_prop in D. destruct D as [D _].
  apply wordy_noWs; auto.
  - destruct (Ascii.eqb_spec a "#") as [->|]; [discriminate D|reflexivity].
  - destruct (Ascii.eqb_spec a "[") as [->|]; [discriminate D|reflexivity].
Qed.

(** ** Properties *)

Section PROPERTY.
  Variable V : list string.
  Variable var : string -> nat -> Prop.
  Hypothesis HV : forall w, In w V -> wordy w /\ reserved w = false /\ exists i, var w i.

  Definition recall (i : nat) : string := ("? " ++ showNat i)%string.
  Definition usable (m : nat) : list string := V ++ map recall (seq 0 m).
  Definition good (m : nat) (p : string) : Prop :=
    edge p /\ join (words p) = p /\ exists f, gram var maxNumber false m f (words p).

  Lemma usable_S i : usable i ++ [("? " ++ showNat i)%string] = usable (S i).
  Proof. unfold usable. rewrite <- app_assoc. f_equal. rewrite seq_S, map_app. reflexivity. Qed.
  Lemma usable_0 m : existsb (String.eqb "? 0") (usable m) = false -> m = 0.
  Proof.
    destruct m as [|m]; [auto|]. unfold usable. rewrite existsb_app. cbn [seq map existsb]. change (recall 0) with "? 0"%string. cbn. now rewrite orb_true_r.
  Qed.
  Lemma words_edge p : edge p -> words p <> [].
  Proof. intros ((a & r & -> & W & _) & _). now apply words_nonempty. Qed.
  Lemma join_sep a b : edge a -> edge b -> join (words a) = a -> join (words b) = b -> join (words (a ++ String " " b)%string) = (a ++ String " " b)%string.
  Proof. intros Ea Eb Ja Jb. rewrite words_sp, join_app by now apply words_edge. now rewrite Ja, Jb. Qed.
  Lemma blank_noNl : noNl " ".
  Proof. intros a [<-|[]]. discriminate. Qed.
  Lemma edge_sep a b : edge a -> edge b -> edge (a ++ String " " b)%string.
  Proof. intros Ea Eb. apply (edge_app a " " b Ea Eb blank_noNl). Qed.
  Lemma wordy_lit w : match w with String a r => noWs w && negb (a =? "#")%char && negb (a =? "[")%char | _ => false end = true -> wordy w.
  Proof. destruct w as [|a r]; [discriminate|]. intros H. apply andb_prop in H. destruct H as [H H3]. apply andb_prop in H. destruct H as [H1 H2]. apply wordy_noWs; auto; now apply negb_true_iff. Qed.

  Lemma small i : i <= 5 -> (N.of_nat i < maxNumber)%N.
  Proof. unfold maxNumber. lia. Qed.

  Lemma gram_recall i m : i < m -> m <= 5 -> good m (recall i).
  Proof.
    intros H B. destruct (wordy_show i) as [E W]. destruct (wordy_lit "?" eq_refl) as [E' W']. split; [|split].
    - apply (edge_sep "?" (showNat i)); auto.
    - apply (join_sep "?" (showNat i)); auto. now rewrite W.
    - exists (FRecall i). change (recall i) with ("?" ++ String " " (showNat i))%string. rewrite words_sp, W. cbn [words app].
      apply g_recall; auto; [apply numeral_show|apply small; lia].
  Qed.
  Lemma gram_var w m : In w V -> good m w.
  Proof.
    intros H. destruct (HV w H) as (W & R & i & Hi). split; [apply W|]. split; [now apply wordy_join|]. exists (FVar i). destruct W as [_ ->]. now apply g_var.
  Qed.
  Lemma gram_usable m w : m <= 5 -> In w (usable m) -> good m w.
  Proof.
    intros B H. apply in_app_or in H. destruct H as [H|H]; [now apply gram_var|].
    apply in_map_iff in H. destruct H as (i & <- & Hi). apply in_seq in Hi. apply gram_recall; lia.
  Qed.

  Lemma choice_in {A} (l : list A) ds a rest : choice l ds = GOk a rest -> In a l.
  Proof.
    destruct l as [|x l]; [discriminate|]. destruct ds as [|d ds]; [discriminate|]. unfold choice, draw, gbind. intros E.
    assert (H : nth (d mod length (x :: l)) (x :: l) x = a) by congruence. rewrite <- H. apply nth_In. apply Nat.mod_upper_bound. discriminate.
  Qed.

  Lemma elements_spec gen n : n <= 5 -> (forall m ds p rest, m <= 5 -> gen (usable m) ds = GOk p rest -> good m p) ->
    forall k i acc ds p rest, i + k = n -> edge acc -> join (words acc) = acc ->
    elements gen k i (usable i) acc ds = GOk p rest ->
    edge p /\ join (words p) = p /\ exists fs ws, words p = words acc ++ ws /\ length fs = k /\ gramL var maxNumber false n i fs ws.
  Proof.
    intros B G. induction k as [|k IH]; intros i acc ds p rest S Ea Ja; cbn [elements].
    - intros E. injection E as <- _. split; auto. split; auto. exists [], []. rewrite app_nil_r. repeat split. constructor.
    - destruct (gen (usable i) ds) as [q ds'| | |] eqn:Eg; try discriminate. cbn [gbind]. rewrite usable_S.
      destruct (G i ds q ds') as (Eq & Jq & f & Gf); [lia|exact Eg|]. intros E.
      change (acc ++ " " ++ q)%string with (acc ++ String " " q)%string in E.
      destruct (IH (Datatypes.S i) _ _ _ _ ltac:(lia) (edge_sep _ _ Ea Eq) (join_sep _ _ Ea Eq Ja Jq) E) as (H1 & H2 & fs & ws & H3 & H4 & H5).
      split; auto. split; auto. exists (f :: fs), (words q ++ ws). rewrite H3, words_sp, <- app_assoc. repeat split; [cbn; now rewrite H4|].
      now constructor.
  Qed.

  Lemma makeAProperty_spec : forall fuel m ds p rest, m <= 5 -> makeAProperty fuel (usable m) ds = GOk p rest -> good m p.
  Proof.
    induction fuel as [|fuel IH]; intros m ds p rest B; [discriminate|]. cbn [makeAProperty].
    destruct (choice ops ds) as [op ds1| | |]; try discriminate. cbn [gbind].
    assert (OP : forall w, wordy w -> forall q, edge q -> join (words q) = q ->
       edge (w ++ String " " q)%string /\ join (words (w ++ String " " q)%string) = (w ++ String " " q)%string /\ words (w ++ String " " q)%string = w :: words q).
    { intros w W q Eq Jq. split; [apply edge_sep; [apply W|auto]|]. split; [apply join_sep; auto; [apply W|now apply wordy_join]|]. rewrite words_sp. now rewrite (proj2 W). }
    destruct (String.eqb op "!").
    { destruct (makeAProperty fuel (usable m) ds1) as [q ds2| | |] eqn:E; try discriminate. cbn [gbind]. intros X. injection X as <- _.
      destruct (IH _ _ _ _ B E) as (Eq & Jq & f & Gf). destruct (OP "!"%string (wordy_lit "!" eq_refl) q Eq Jq) as (H1 & H2 & H3).
      split; [exact H1|]. split; [exact H2|]. exists (FNot f). refine (eq_ind_r (fun ws => gram var maxNumber false m (FNot f) ws) _ H3). now apply g_not. }
    assert (BIN : forall w c q q' ds2 ds3, wordy w -> (forall f g ws vs, gram var maxNumber false m f ws -> gram var maxNumber false m g vs -> gram var maxNumber false m (c f g) (w :: ws ++ vs)) ->
       makeAProperty fuel (usable m) ds1 = GOk q ds2 -> makeAProperty fuel (usable m) ds2 = GOk q' ds3 -> good m (w ++ String " " (q ++ String " " q'))%string).
    { intros w c q q' ds2 ds3 W C E1 E2. destruct (IH _ _ _ _ B E1) as (Eq & Jq & f & Gf). destruct (IH _ _ _ _ B E2) as (Eq' & Jq' & g & Gg).
      destruct (OP w W (q ++ String " " q')%string (edge_sep _ _ Eq Eq') (join_sep _ _ Eq Eq' Jq Jq')) as (H1 & H2 & H3).
      split; auto. split; auto. exists (c f g). rewrite H3, words_sp. now apply C. }
    destruct (String.eqb op "&").
    { destruct (makeAProperty fuel (usable m) ds1) as [q ds2| | |] eqn:E; try discriminate. cbn [gbind].
      destruct (makeAProperty fuel (usable m) ds2) as [q' ds3| | |] eqn:E'; try discriminate. cbn [gbind]. intros X. injection X as <- _.
      exact (BIN "&"%string FAnd q q' ds2 ds3 (wordy_lit "&" eq_refl) (g_and _ _ _ m) eq_refl E'). }
    destruct (String.eqb op "|").
    { destruct (makeAProperty fuel (usable m) ds1) as [q ds2| | |] eqn:E; try discriminate. cbn [gbind].
      destruct (makeAProperty fuel (usable m) ds2) as [q' ds3| | |] eqn:E'; try discriminate. cbn [gbind]. intros X. injection X as <- _.
      exact (BIN "|"%string FOr q q' ds2 ds3 (wordy_lit "|" eq_refl) (g_or _ _ _ m) eq_refl E'). }
    destruct (String.eqb op "AP").
    { intros E. apply choice_in in E. now apply gram_usable. }
    destruct (String.eqb op "$" && negb (existsb (String.eqb "? 0") (usable m))) eqn:Ed.
    { apply andb_prop in Ed. destruct Ed as [_ Ed]. apply negb_true_iff in Ed. apply usable_0 in Ed. subst m.
      destruct ds1 as [|d ds2]; [discriminate|]. unfold randint. cbn [draw gbind]. set (n := 1 + d mod (5 + 1 - 1)).
      assert (Hn : 1 <= n <= 5) by (unfold n; pose proof (Nat.mod_upper_bound d 5 ltac:(lia)); cbn [Nat.sub Nat.add] in *; lia).
      destruct (wordy_show n) as [En Wn].
      destruct (OP "$"%string (wordy_lit "$" eq_refl) (showNat n) En (wordy_join _ (conj En Wn))) as (H1 & H2 & H3). intros E.
      destruct (elements_spec (makeAProperty fuel) n ltac:(lia) (fun m ds p rest Bm => IH m ds p rest Bm) n 0 _ _ _ _ eq_refl H1 H2 E)
        as (K1 & K2 & fs & ws & K3 & K4 & K5).
      split; auto. split; auto. exists (FBuf fs). rewrite K3. rewrite H3, Wn.
      apply (g_buf _ _ _ _ (showNat n) n); auto; [apply numeral_show|apply small; lia|lia]. }
    intros E. injection E as <- _. destruct (wordy_lit "1" eq_refl) as [W1 W2]. split; auto. split; [now apply wordy_join|]. exists FTrue. apply g_true.
  Qed.

  Lemma properties_spec : forall fuel ds ps rest, properties fuel V ds = GOk ps rest -> Forall (good 0) ps.
  Proof.
    induction fuel as [|fuel IH]; intros ds ps rest; [discriminate|]. cbn [properties]. destruct ds as [|d ds]; [discriminate|]. unfold chance. cbn [draw gbind].
    destruct (negb (d =? 0)%nat); [|intros E; injection E as <- _; constructor].
    destruct (makeAProperty (S (length ds)) V ds) as [p ds1| | |] eqn:E1; try discriminate. cbn [gbind].
    destruct (properties fuel V ds1) as [ps' ds2| | |] eqn:E2; try discriminate. cbn [gbind]. intros E. injection E as <- _.
    constructor; [|eapply IH; eauto]. apply (makeAProperty_spec (S (length ds)) 0 ds p ds1); [lia|]. unfold usable. cbn [seq map]. now rewrite app_nil_r.
  Qed.
End PROPERTY.

(** ** Outcomes *)

(** More numbers are needed, or some have been used. *)
Definition proceeds {A} (ds : list nat) (x : gres A) : Prop :=
  match x with GOk _ rest => length rest < length ds | GMore => True | GExc | GFuel => False end.
Lemma proceeds_bind {A B} ds (x : gres A) (f : A -> list nat -> gres B) : proceeds ds x ->
  (forall a rest, length rest < length ds -> match f a rest with GOk _ rest' => length rest' <= length rest | GMore => True | _ => False end) -> proceeds ds (gbind x f).
Proof.
  destruct x as [a rest| | |]; cbn [proceeds gbind]; auto. intros H F. specialize (F a rest H). destruct (f a rest); cbn [proceeds] in *; auto; lia.
Qed.
Lemma proceeds_le {A} ds (x : gres A) : proceeds ds x -> match x with GOk _ rest => length rest <= length ds | GMore => True | _ => False end.
Proof. destruct x; cbn; auto; lia. Qed.
Lemma choice_proceeds {A} (l : list A) ds : l <> [] -> proceeds ds (choice l ds).
Proof. destruct l as [|a l]; [easy|]. intros _. destruct ds as [|d ds]; cbn [choice draw gbind proceeds]; auto. Qed.

Lemma elements_proceeds gen b k : (forall aps ds, aps <> [] -> length ds < b -> proceeds ds (gen aps ds)) -> forall i aps acc ds, aps <> [] -> length ds < b ->
  match elements gen k i aps acc ds with GOk _ rest => length rest <= length ds | GMore => True | _ => False end.
Proof.
  intros G. induction k as [|k IH]; intros i aps acc ds N B; cbn [elements]; [lia|].
  specialize (G aps ds N B). destruct (gen aps ds) as [p ds'| | |]; cbn [proceeds gbind] in *; try exact I; try contradiction.
  assert (N' : (aps ++ [("? " ++ showNat i)%string])%list <> []) by (destruct aps; discriminate).
  specialize (IH (S i) _ (acc ++ " " ++ p)%string ds' N' ltac:(lia)). destruct (elements gen k (S i) _ _ ds'); auto. lia.
Qed.

Lemma makeAProperty_proceeds : forall fuel aps ds, aps <> [] -> length ds < fuel -> proceeds ds (makeAProperty fuel aps ds).
Proof.
  induction fuel as [|fuel IH]; intros aps ds N B; [lia|]. cbn [makeAProperty].
  apply proceeds_bind; [now apply choice_proceeds|]. intros op ds1 L1.
  assert (IH' : forall ds', length ds' <= length ds1 -> match makeAProperty fuel aps ds' with GOk _ rest => length rest <= length ds' | GMore => True | _ => False end).
  { intros ds' L. apply proceeds_le, IH; [exact N|lia]. }
  assert (BIN : forall c : string -> string -> string, match gbind (makeAProperty fuel aps ds1) (fun p ds => gbind (makeAProperty fuel aps ds) (fun q ds => GOk (c p q) ds))
     with GOk _ rest => length rest <= length ds1 | GMore => True | _ => False end).
  { intros c. pose proof (IH' ds1 (le_n _)) as H. destruct (makeAProperty fuel aps ds1) as [p ds2| | |]; cbn [gbind]; auto.
    pose proof (IH' ds2 H) as H'. destruct (makeAProperty fuel aps ds2) as [q ds3| | |]; cbn [gbind]; auto. lia. }
  destruct (String.eqb op "!").
  { pose proof (IH' ds1 (le_n _)) as H. destruct (makeAProperty fuel aps ds1) as [p ds2| | |]; cbn [gbind]; auto. }
  destruct (String.eqb op "&"); [apply BIN|]. destruct (String.eqb op "|"); [apply BIN|].
  destruct (String.eqb op "AP"); [apply proceeds_le; now apply choice_proceeds|].
  destruct (String.eqb op "$" && _); [|lia].
  destruct ds1 as [|d ds2]; unfold randint; cbn [draw gbind]; [exact I|]. cbn [length] in L1.
  pose proof (elements_proceeds (makeAProperty fuel) fuel (1 + d mod (5 + 1 - 1)) (fun aps ds N B => IH aps ds N B) 0 aps
    ("$ " ++ showNat (1 + d mod (5 + 1 - 1)))%string ds2 N ltac:(lia)) as H.
  destruct (elements _ _ _ _ _ ds2); auto. cbn [length]. lia.
Qed.
Lemma properties_proceeds : forall fuel aps ds, aps <> [] -> length ds < fuel -> proceeds ds (properties fuel aps ds).
Proof.
  induction fuel as [|fuel IH]; intros aps ds N B; [lia|]. cbn [properties]. destruct ds as [|d ds]; unfold chance; cbn [draw gbind]; [exact I|].
  cbn [length] in B. destruct (negb (d =? 0)%nat); [|cbn; lia].
  pose proof (makeAProperty_proceeds (S (length ds)) aps ds N (Nat.lt_succ_diag_r _)) as H.
  destruct (makeAProperty (S (length ds)) aps ds) as [p ds1| | |]; cbn [gbind proceeds] in *; auto.
  specialize (IH aps ds1 N ltac:(lia)). destruct (properties fuel aps ds1) as [ps ds2| | |]; cbn [gbind proceeds length] in *; auto. lia.
Qed.
Lemma specification_outcome n ds : n <> 0 -> specification n ds = GMore \/ exists content rest, specification n ds = GOk content rest.
Proof.
  intros N. assert (NI : apsInput n <> []) by (destruct n; [easy|discriminate]). assert (NO : apsOutput n <> []) by (destruct n; [easy|discriminate]).
  assert (NA : forall r, apsInput n ++ r <> []) by (intros r; destruct (apsInput n); [easy|discriminate]).
  assert (P : forall aps ds, aps <> [] -> proceeds ds (propertiesFor aps ds)) by (intros; apply properties_proceeds; [auto|lia]).
  unfold specification.
  pose proof (P (apsInput n ++ apsOutput n ++ post (apsInput n)) ds (NA _)) as H. destruct (propertiesFor _ ds) as [et d1| | |]; cbn [gbind proceeds] in *; auto; try contradiction. clear H.
  pose proof (P (apsInput n) d1 NI) as H. destruct (propertiesFor _ d1) as [ei d2| | |]; cbn [gbind proceeds] in *; auto; try contradiction. clear H.
  pose proof (P (apsOutput n) d2 NO) as H. destruct (propertiesFor _ d2) as [si d3| | |]; cbn [gbind proceeds] in *; auto; try contradiction. clear H.
  pose proof (P (apsInput n ++ apsOutput n ++ post (apsInput n) ++ post (apsOutput n)) d3 (NA _)) as H. destruct (propertiesFor _ d3) as [st d4| | |]; cbn [gbind proceeds] in *; auto; try contradiction. eauto.
Qed.

(** ** Names *)

Definition names (n : nat) : list string := apsInput n ++ apsOutput n.
Definition prs (w : string) : list string := [w; (w ++ "'")%string].

Lemma name_in i : wordy ("in" ++ showNat i)%string /\ wordy (("in" ++ showNat i) ++ "'")%string.
Proof.
  assert (E : noWs ("in" ++ showNat i) = true) by (rewrite noWs_app, noWs_show; reflexivity).
  split; (apply wordy_noWs; [|reflexivity..]); [exact E|]. change (noWs (("in" ++ showNat i) ++ "'") = true). rewrite noWs_app, E. reflexivity.
Qed.
Lemma name_out i : wordy ("out" ++ showNat i)%string /\ wordy (("out" ++ showNat i) ++ "'")%string.
Proof.
  assert (E : noWs ("out" ++ showNat i) = true) by (rewrite noWs_app, noWs_show; reflexivity).
  split; (apply wordy_noWs; [|reflexivity..]); [exact E|]. change (noWs (("out" ++ showNat i) ++ "'") = true). rewrite noWs_app, E. reflexivity.
Qed.
Lemma names_wordy n w : In w (names n) -> forall v, In v (prs w) -> wordy v /\ reserved v = false.
Proof.
  intros H v Hv. apply in_app_or in H. destruct H as [H|H]; apply in_map_iff in H; destruct H as (i & <- & _).
  - destruct (name_in i). destruct Hv as [<-|[<-|[]]]; split; auto; reflexivity.
  - destruct (name_out i). destruct Hv as [<-|[<-|[]]]; split; auto; reflexivity.
Qed.

Lemma names_length n : length (apsInput n) = n /\ length (apsOutput n) = n.
Proof. unfold apsInput, apsOutput. now rewrite !map_length, !seq_length. Qed.
Lemma app_cancel a : forall x y : string, (a ++ x)%string = (a ++ y)%string -> x = y.
Proof. induction a as [|c a IH]; intros x y E; [exact E|]. cbn in E. injection E as E. auto. Qed.
Lemma names_NoDup n : NoDup (names n).
Proof.
  assert (M : forall pre, NoDup (map (fun i => (pre ++ showNat i)%string) (seq 0 n))).
  { intros pre. apply FinFun.Injective_map_NoDup; [|apply seq_NoDup]. intros i j E. apply app_cancel in E. now apply showNat_inj. }
  assert (A : forall l1 l2 : list string, NoDup l1 -> NoDup l2 -> (forall x, In x l1 -> ~ In x l2) -> NoDup (l1 ++ l2)).
  { induction l1 as [|x l1 IH]; intros l2 N1 N2 D; [exact N2|]. inversion N1 as [|? ? K1 K2]; subst. cbn [app]. constructor.
    - intros H. apply in_app_or in H. destruct H as [H|H]; [contradiction|]. apply (D x); [now left|exact H].
    - apply IH; auto. intros y Hy. apply D. now right. }
  apply A; [apply M|apply M|]. intros x H H'. apply in_map_iff in H, H'. destruct H as (i & <- & _), H' as (j & E & _). discriminate E.
Qed.
Lemma names_quote n w : In w (names n) -> ~ In "'"%char (list_ascii_of_string w).
Proof.
  intros H X. assert (D : forall i, ~ In "'"%char (list_ascii_of_string (showNat i))).
  { intros i K. pose proof (numeral_show i) as (_ & A & _). revert A K. generalize (showNat i). intros s. induction s as [|a s IH]; [intros _ []|].
    cbn [allDigits list_ascii_of_string In]. intros A. apply andb_prop in A. destruct A as [A1 A2]. intros [->|K]; [discriminate A1|auto]. }
  apply in_app_or in H. destruct H as [H|H]; apply in_map_iff in H; destruct H as (i & <- & _); rewrite lasc_app in X;
    apply in_app_or in X; (destruct X as [X|X]; [|exact (D i X)]); cbn in X; intuition discriminate.
Qed.
Lemma prime_inj a : forall b : string, (a ++ "'")%string = (b ++ "'")%string -> a = b.
Proof.
  induction a as [|c a IH]; intros [|c' b] E; cbn [append] in E; auto.
  - destruct b; discriminate E.
  - destruct a; discriminate E.
  - injection E as -> E. f_equal. auto.
Qed.
Lemma prs_NoDup l : NoDup l -> (forall w, In w l -> ~ In "'"%char (list_ascii_of_string w)) -> NoDup (flat_map prs l).
Proof.
  assert (Q : forall w, In "'"%char (list_ascii_of_string (w ++ "'")%string)) by (intros w; rewrite lasc_app; apply in_or_app; right; now left).
  induction l as [|w l IH]; intros N H; [constructor|]. inversion N as [|? ? N1 N2]; subst. cbn [flat_map prs app].
  assert (IN : forall v, In v (flat_map prs l) -> In v l \/ exists u, In u l /\ v = (u ++ "'")%string).
  { intros v K. apply in_flat_map in K. destruct K as (u & Hu & [<-|[<-|[]]]); eauto. }
  assert (Hw := H w (or_introl eq_refl)). assert (Hl : forall v, In v l -> ~ In "'"%char (list_ascii_of_string v)) by (intros; apply H; now right).
  constructor; [|constructor]; auto.
  - intros [E|K]; [apply Hw; rewrite <- E; apply Q|]. apply IN in K. destruct K as [K|(u & Hu & E)]; [contradiction|]. apply Hw. rewrite E. apply Q.
  - intros K. apply IN in K. destruct K as [K|(u & Hu & E)]; [apply (Hl _ K), Q|]. apply prime_inj in E. subst u. contradiction.
Qed.

(** ** Declarations *)

Definition decl (n : nat) : items := map (pair SInput) (apsInput n) ++ map (pair SOutput) (apsOutput n).
Lemma declared_decl n : declared (decl n) = flat_map prs (names n).
Proof.
  unfold decl, names. rewrite declared_app, flat_map_app. f_equal; [generalize (apsInput n)|generalize (apsOutput n)]; intros l;
    induction l as [|x l IH]; cbn [map flat_map]; auto; unfold declared in *; cbn [flat_map fst snd map]; now rewrite IH.
Qed.
Lemma outputs_decl n : outputs (decl n) = repeat false n ++ repeat true n.
Proof.
  destruct (names_length n) as [E1 E2]. unfold decl. rewrite outputs_app. rewrite <- E1 at 3. rewrite <- E2 at 4.
  f_equal; [generalize (apsInput n)|generalize (apsOutput n)]; intros l;
    induction l as [|x l IH]; cbn [map length repeat]; auto; unfold outputs in *; cbn [flat_map fst map]; now rewrite IH.
Qed.
Lemma nth_prs l : forall k w, nth_error l k = Some w -> nth_error (flat_map prs l) (2 * k) = Some w /\ nth_error (flat_map prs l) (2 * k + 1) = Some (w ++ "'")%string.
Proof.
  induction l as [|x l IH]; intros [|k] w H; try discriminate H.
  - injection H as ->. auto.
  - replace (2 * S k) with (S (S (2 * k))) by lia. apply IH. exact H.
Qed.
(** Names and next values of the variables: inputs and outputs. *)
Lemma var_decl n w (out : bool) : In w (if out then apsOutput n else apsInput n) -> forall F, Forall (fun p => formulaSection (fst p) = true) F -> forall s,
  (may_use s out false = true -> exists i, file_var (decl n ++ F) s w i) /\ (may_use s out true = true -> exists i, file_var (decl n ++ F) s (w ++ "'")%string i).
Proof.
  intros H F HF s.
  assert (EF : declared F = [] /\ outputs F = []).
  { clear -HF. induction HF as [|[t l] F H HF IH]; [split; reflexivity|]. unfold declared, outputs in *. cbn [flat_map fst snd]. destruct IH as [-> ->]. destruct t; try discriminate H; split; reflexivity. }
  destruct EF as [E1 E2].
  assert (K : exists k, nth_error (names n) k = Some w /\ nth k (outputs (decl n)) false = out).
  { destruct (names_length n) as [L1 L2]. rewrite outputs_decl. unfold names. apply In_nth_error in H. destruct H as (k & Hk). destruct out.
    - assert (B : k < n) by (rewrite <- L2; apply nth_error_Some; congruence). exists (n + k).
      rewrite nth_error_app2, app_nth2, repeat_length by (rewrite ?repeat_length; lia). rewrite L1. replace (n + k - n) with k by lia. split; auto. clear -B. revert k B. induction n as [|n IH]; intros [|k] B; try lia; cbn; auto. apply IH. lia.
    - assert (B : k < n) by (rewrite <- L1; apply nth_error_Some; congruence). exists k.
      rewrite nth_error_app1, app_nth1 by (rewrite ?repeat_length; lia). split; auto. clear. revert k. induction n as [|n IH]; intros [|k]; cbn; auto. }
  destruct K as (k & Hk & Ho). destruct (nth_prs _ _ _ Hk) as [P1 P2]. rewrite <- declared_decl in P1, P2.
  unfold file_var. rewrite declared_app, outputs_app, E1, E2, !app_nil_r. split; intros M.
  - exists (2 * k). split; auto. rewrite Nat.div2_double, Ho. replace (Nat.odd (2 * k)) with false; auto. symmetry. rewrite Nat.odd_mul. reflexivity.
  - exists (2 * k + 1). split; auto. rewrite Nat.add_1_r, Nat.div2_succ_double, Ho. replace (Nat.odd (S (2 * k))) with true; auto. symmetry. rewrite Nat.odd_succ. apply Nat.even_spec. now exists k.
Qed.

(** ** The file *)

Definition fuzzOrder : list section := [SInput; SOutput; SEnvInit; SEnvTrans; SSysInit; SSysTrans].
Definition linesFor (n : nat) (ei et si st : list string) : categories :=
  fun s => match s with SInput => apsInput n | SOutput => apsOutput n | SEnvInit => ei | SEnvTrans => et | SSysInit => si | SSysTrans => st | _ => [] end.
Lemma writeSection_text title ls : writeSection title ls = unlines (title :: ls ++ [""%string]).
Proof. unfold writeSection. rewrite unlines_cons, unlines_app. f_equal. Qed.

(** What may occur in the formulas of a section. *)
Definition allowedAps (n : nat) (s : section) : list string :=
  match s with
  | SEnvInit => apsInput n
  | SSysInit => apsOutput n
  | SEnvTrans => apsInput n ++ apsOutput n ++ post (apsInput n)
  | SSysTrans => apsInput n ++ apsOutput n ++ post (apsInput n) ++ post (apsOutput n)
  | _ => []
  end.
Lemma aps_ok n s F : Forall (fun p => formulaSection (fst p) = true) F -> forall w, In w (allowedAps n s) ->
  wordy w /\ reserved w = false /\ exists i, file_var (decl n ++ F) s w i.
Proof.
  intros HF w H.
  assert (KI : In w (apsInput n) -> may_use s false false = true -> wordy w /\ reserved w = false /\ exists i, file_var (decl n ++ F) s w i).
  { intros K M. destruct (names_wordy n w (in_or_app _ _ _ (or_introl K)) w (or_introl eq_refl)). split; auto. split; auto. now apply (var_decl n w false K F HF s). }
  assert (KO : In w (apsOutput n) -> may_use s true false = true -> wordy w /\ reserved w = false /\ exists i, file_var (decl n ++ F) s w i).
  { intros K M. destruct (names_wordy n w (in_or_app _ _ _ (or_intror K)) w (or_introl eq_refl)). split; auto. split; auto. now apply (var_decl n w true K F HF s). }
  assert (PI : In w (post (apsInput n)) -> may_use s false true = true -> wordy w /\ reserved w = false /\ exists i, file_var (decl n ++ F) s w i).
  { intros K M. apply in_map_iff in K. destruct K as (v & <- & K). destruct (names_wordy n v (in_or_app _ _ _ (or_introl K)) (v ++ "'")%string (or_intror (or_introl eq_refl))). split; auto. split; auto. now apply (var_decl n v false K F HF s). }
  assert (PO : In w (post (apsOutput n)) -> may_use s true true = true -> wordy w /\ reserved w = false /\ exists i, file_var (decl n ++ F) s w i).
  { intros K M. apply in_map_iff in K. destruct K as (v & <- & K). destruct (names_wordy n v (in_or_app _ _ _ (or_intror K)) (v ++ "'")%string (or_intror (or_introl eq_refl))). split; auto. split; auto. now apply (var_decl n v true K F HF s). }
  assert (C : (In w (apsInput n) /\ may_use s false false = true) \/ (In w (apsOutput n) /\ may_use s true false = true) \/
    (In w (post (apsInput n)) /\ may_use s false true = true) \/ (In w (post (apsOutput n)) /\ may_use s true true = true)).
  { clear -H. destruct s; cbn [allowedAps] in H; rewrite ?in_app_iff in H; try contradiction; change (may_use SEnvInit false false) with true;
      change (may_use SSysInit true false) with true; change (may_use SEnvTrans false false) with true; change (may_use SEnvTrans true false) with true;
      change (may_use SEnvTrans false true) with true; change (may_use SSysTrans) with (fun _ _ : bool => true); cbv beta; tauto. }
  destruct C as [[? ?]|[[? ?]|[[? ?]|[? ?]]]]; auto.
Qed.

Lemma split_decl {A} (P : A -> bool) D : forall F L1 x L2, forallb (fun a => negb (P a)) D = true -> D ++ F = L1 ++ x :: L2 -> P x = true ->
  exists L1', L1 = D ++ L1' /\ F = L1' ++ x :: L2.
Proof.
  induction D as [|d D IH]; intros F L1 x L2 H E Px; [exists L1; auto|]. cbn in H. apply andb_prop in H. destruct H as [H1 H2].
  destruct L1 as [|y L1]; cbn [app] in E; injection E as E1 E2; [subst; rewrite Px in H1; discriminate|].
  destruct (IH F L1 x L2 H2 E2 Px) as (L1' & -> & ->). exists L1'. subst. auto.
Qed.

Lemma specification_spec n ds content rest : specification n ds = GOk content rest -> exists L,
  layout None (file_lines content) = Some L /\ NoDup (declared L) /\ grammatical L /\ plain_file L /\ safety_only L /\ single_blanks L /\
  linesOf SInput L = apsInput n /\ linesOf SOutput L = apsOutput n.
Proof.
  unfold specification.
  destruct (propertiesFor _ ds) as [et d1| | |] eqn:E1; try discriminate. cbn [gbind].
  destruct (propertiesFor _ d1) as [ei d2| | |] eqn:E2; try discriminate. cbn [gbind].
  destruct (propertiesFor _ d2) as [si d3| | |] eqn:E3; try discriminate. cbn [gbind].
  destruct (propertiesFor _ d3) as [st d4| | |] eqn:E4; try discriminate. cbn [gbind]. intros E.
  match type of E with GOk ?t _ = _ => assert (Ec : content = t) by congruence end. rewrite Ec. clear E Ec content.
  set (d := linesFor n ei et si st).
  assert (G : forall s F, formulaSection s = true -> Forall (fun p => formulaSection (fst p) = true) F -> Forall (good (file_var (decl n ++ F) s) 0) (d s)).
  { intros s F Hs HF. assert (A := aps_ok n s F HF). destruct s; try discriminate Hs; unfold d; cbn [linesFor allowedAps] in *; try constructor.
    - exact (properties_spec _ _ A _ _ _ _ E2).
    - exact (properties_spec _ _ A _ _ _ _ E3).
    - exact (properties_spec _ _ A _ _ _ _ E1).
    - exact (properties_spec _ _ A _ _ _ _ E4). }
  assert (GL : forall s, Forall goodLine (d s)).
  { intros s. destruct (formulaSection s) eqn:Hs.
    - eapply Forall_impl; [|exact (G s [] Hs (Forall_nil _))]. intros p (Ep & _). now apply edge_good.
    - apply Forall_forall. intros w Hw. assert (In w (names n)) by (unfold names; apply in_or_app; destruct s; try discriminate Hs; auto).
      destruct (names_wordy n w H w (or_introl eq_refl)) as [[K _] _]. now apply edge_good. }
  exists (LS fuzzOrder d). split.
  { rewrite <- (layout_text [""%string] d fuzzOrder GL (or_intror eq_refl)). f_equal. f_equal. rewrite !writeSection_text, <- !unlines_app.
    change (textOf ?x) with (unlines x). f_equal. cbn [flat_map fuzzOrder]. now rewrite app_nil_r. }
  set (F := flat_map (fun s => map (pair s) (d s)) [SEnvInit; SEnvTrans; SSysInit; SSysTrans]).
  assert (EL : LS fuzzOrder d = decl n ++ F).
  { unfold LS, fuzzOrder, decl, F. cbn [flat_map]. unfold d at 1 2. cbn [linesFor]. now rewrite <- !app_assoc. }
  assert (HF : Forall (fun p => formulaSection (fst p) = true) F).
  { apply Forall_forall. intros p Hp. apply in_flat_map in Hp. destruct Hp as (s & Hs & Hp). apply in_map_iff in Hp. destruct Hp as (l & <- & _). cbn in Hs |- *. intuition subst; reflexivity. }
  assert (ND : NoDup (declared (LS fuzzOrder d))).
  { rewrite EL, declared_app. replace (declared F) with (@nil string).
    - rewrite app_nil_r, declared_decl. apply prs_NoDup; [apply names_NoDup|apply names_quote].
    - clear -HF. induction HF as [|[t l] F H HF IH]; [reflexivity|]. unfold declared in *. cbn [flat_map fst snd]. rewrite <- IH. destruct t; try discriminate H; reflexivity. }
  assert (IN : forall s line, formulaSection s = true -> In (s, line) (LS fuzzOrder d) -> In line (d s)).
  { intros s line Hs Hin. unfold LS in Hin. apply in_flat_map in Hin. destruct Hin as (s' & _ & Hin). apply in_map_iff in Hin. destruct Hin as (x & E & Hx). injection E as -> ->. exact Hx. }
  split; [exact ND|]. split; [|split; [|split; [|split; [|split]]]].
  - intros L1 s line L2 E Hs. assert (Hin : In line (d s)) by (apply IN; auto; rewrite E; apply in_or_app; right; now left).
    rewrite EL in E. destruct (split_decl (fun p => formulaSection (fst p)) (decl n) F L1 (s, line) L2) as (L1' & -> & EF); auto.
    { unfold decl. rewrite forallb_app. apply andb_true_intro. split; apply forallb_forall; intros p Hp; apply in_map_iff in Hp; destruct Hp as (x & <- & _); reflexivity. }
    assert (HF' : Forall (fun p => formulaSection (fst p) = true) L1') by (rewrite EF in HF; apply Forall_app in HF; tauto).
    specialize (G s L1' Hs HF'). rewrite Forall_forall in G. now destruct (G line Hin) as (_ & _ & K).
  - intros s line Hs Hin. apply IN in Hin; auto. specialize (G s [] Hs (Forall_nil _)). rewrite Forall_forall in G. destruct (G line Hin) as (_ & _ & f & K).
    apply plainB_spec. exact (proj1 (gram_plainB _ _ _) _ _ _ K).
  - assert (O : NoDup fuzzOrder) by (repeat constructor; cbn; intuition discriminate). split; rewrite linesOf_LS by auto; reflexivity.
  - intros s line Hs Hin. apply IN in Hin; auto. specialize (G s [] Hs (Forall_nil _)). rewrite Forall_forall in G. now destruct (G line Hin) as (_ & K & _).
  - rewrite linesOf_LS by (repeat constructor; cbn; intuition discriminate). reflexivity.
  - rewrite linesOf_LS by (repeat constructor; cbn; intuition discriminate). reflexivity.
Qed.
