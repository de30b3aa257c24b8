(** * Proofs about the command line *)

From Coq Require Import String Ascii Arith NArith List Bool Lia.
From Verif Require Import CommandLine CommandLineSpec.
Import ListNotations.
Local Open Scope string_scope.
Local Open Scope list_scope.

(** ** The order of strings *)
Definition slt (a b : string) : Prop := String.compare a b = Lt.

Lemma acmp_lt_trans a b c : Ascii.compare a b = Lt -> Ascii.compare b c = Lt -> Ascii.compare a c = Lt.
Proof. unfold Ascii.compare. rewrite !N.compare_lt_iff. lia. Qed.
Lemma acmp_refl a : Ascii.compare a a = Eq.
Proof. unfold Ascii.compare. apply N.compare_refl. Qed.
Lemma scmp_refl a : String.compare a a = Eq.
Proof. induction a as [|c a IH]; [reflexivity|]. cbn. rewrite acmp_refl. exact IH. Qed.

Lemma slt_trans a : forall b c, slt a b -> slt b c -> slt a c.
Proof.
  unfold slt. induction a as [|x a IH]; intros [|y b] [|z c]; cbn; try discriminate; try reflexivity.
  destruct (Ascii.compare x y) eqn:E1; try discriminate;
    destruct (Ascii.compare y z) eqn:E2; try discriminate; intros H1 H2.
  - apply Ascii.compare_eq_iff in E1. apply Ascii.compare_eq_iff in E2. subst. rewrite acmp_refl. eauto.
  - apply Ascii.compare_eq_iff in E1. subst. rewrite E2. reflexivity.
  - apply Ascii.compare_eq_iff in E2. subst. rewrite E1. reflexivity.
  - rewrite (acmp_lt_trans _ _ _ E1 E2). reflexivity.
Qed.
Lemma slt_irrefl a : ~ slt a a.
Proof. unfold slt. rewrite scmp_refl. discriminate. Qed.
Lemma sgt_slt a b : String.compare a b = Gt -> slt b a.
Proof. unfold slt. intros H. rewrite String.compare_antisym, H. reflexivity. Qed.

(** ** Sorted lists *)
Fixpoint sorted (l : list string) : Prop :=
  match l with
  | [] => True
  | a :: l => (forall b, In b l -> slt a b) /\ sorted l
  end.

Lemma setInsert_in a l : forall x, In x (setInsert a l) <-> x = a \/ In x l.
Proof.
  induction l as [|b l IH]; intros x; cbn; [intuition congruence|].
  destruct (String.compare a b) eqn:E; cbn.
  - apply String.compare_eq_iff in E. subst. intuition congruence.
  - intuition congruence.
  - rewrite IH. intuition congruence.
Qed.
Lemma setInsert_sorted a l : sorted l -> sorted (setInsert a l).
Proof.
  induction l as [|b l IH]; cbn; [now auto|]. intros [Hb Hl].
  destruct (String.compare a b) eqn:E; cbn.
  - auto.
  - split; [|auto]. intros x [<-|Hx]; [exact E|]. apply slt_trans with b; auto.
  - split; [|auto]. intros x Hx. apply setInsert_in in Hx. destruct Hx as [->|Hx]; [|auto].
    apply sgt_slt, E.
Qed.
Lemma sorted_unique l : forall l', sorted l -> sorted l' -> (forall x, In x l <-> In x l') -> l = l'.
Proof.
  induction l as [|a l IH]; intros [|b l'] H H' Hin; [reflexivity| | |].
  - exfalso. apply (proj2 (Hin b)). now left.
  - exfalso. apply (proj1 (Hin a)). now left.
  - cbn in H, H'. destruct H as [Ha Hl], H' as [Hb Hl'].
    assert (a = b) as <-.
    { destruct (proj1 (Hin a) (or_introl eq_refl)) as [E|E]; [auto|].
      destruct (proj2 (Hin b) (or_introl eq_refl)) as [F|F]; [auto|].
      exfalso. apply (slt_irrefl a). apply slt_trans with b; auto. }
    f_equal. apply IH; auto. intros x. split; intros Hx.
    + destruct (proj1 (Hin x) (or_intror Hx)) as [E|E]; [|auto]. subst. exfalso. exact (slt_irrefl _ (Ha _ Hx)).
    + destruct (proj2 (Hin x) (or_intror Hx)) as [E|E]; [|auto]. subst. exfalso. exact (slt_irrefl _ (Hb _ Hx)).
Qed.

(** ** Parsing *)
Lemma startsWithDash_iff a : startsWithDash a = true <-> isOption a.
Proof.
  unfold isOption. destruct a as [|c s]; cbn.
  - split; [discriminate|]. intros [s E]. discriminate.
  - rewrite Ascii.eqb_eq. split; [intros ->; eauto|]. intros [s' E]. congruence.
Qed.
Lemma known_iff a : known a = true <-> In a commandLineArguments.
Proof.
  unfold known. rewrite existsb_exists. split.
  - intros (b & Hb & E). apply String.eqb_eq in E. subst. exact Hb.
  - intros H. exists a. split; [exact H|apply String.eqb_refl].
Qed.
Lemma fileNames_cons a args :
  fileNames (a :: args) = if startsWithDash a then fileNames args else a :: fileNames args.
Proof.
  destruct a as [|c s]; [reflexivity|].
  destruct c as [b0 b1 b2 b3 b4 b5 b6 b7].
  destruct b0, b1, b2, b3, b4, b5, b6, b7; reflexivity.
Qed.
Lemma given_cons o a args : given o (a :: args) <-> (isOption a /\ o = a) \/ given o args.
Proof. unfold given. cbn. intuition (subst; auto). Qed.

Lemma parseArgs_inl args : forall ps fs a,
  parseArgs args ps fs = inl a <->
  exists l r, args = l ++ a :: r /\ isOption a /\ ~ In a commandLineArguments /\ allKnown l.
Proof.
  induction args as [|b args IH]; intros ps fs a; cbn [parseArgs].
  - split; [discriminate|]. intros (l & r & E & _). destruct l; discriminate.
  - destruct (startsWithDash b) eqn:Eb; [destruct (known b) eqn:Ek|].
    + rewrite IH. split.
      * intros (l & r & E & H1 & H2 & H3). exists (b :: l), r. subst. split; [reflexivity|]. split; [exact H1|].
        split; [exact H2|]. intros o Ho. apply given_cons in Ho. destruct Ho as [[_ ->]|Ho]; [now apply known_iff|].
        now apply H3.
      * intros (l & r & E & H1 & H2 & H3). destruct l as [|b' l].
        -- injection E as -> _. exfalso. apply H2. now apply known_iff.
        -- injection E as <- ->. exists l, r. split; [reflexivity|]. split; [exact H1|]. split; [exact H2|].
           intros o Ho. apply H3. apply given_cons. now right.
    + split.
      * intros E. injection E as <-. exists [], args. split; [reflexivity|]. split; [now apply startsWithDash_iff|].
        split; [intros H; apply known_iff in H; congruence|]. intros o [_ []].
      * intros (l & r & E & H1 & H2 & H3). destruct l as [|b' l].
        -- now injection E as -> _.
        -- injection E as <- ->. exfalso.
           assert (In b commandLineArguments) as H.
           { apply H3. apply given_cons. left. split; [now apply startsWithDash_iff|reflexivity]. }
           apply known_iff in H. congruence.
    + rewrite IH. split.
      * intros (l & r & E & H1 & H2 & H3). exists (b :: l), r. subst. split; [reflexivity|]. split; [exact H1|].
        split; [exact H2|]. intros o Ho. apply given_cons in Ho. destruct Ho as [[Hb _]|Ho].
        -- apply startsWithDash_iff in Hb. congruence.
        -- now apply H3.
      * intros (l & r & E & H1 & H2 & H3). destruct l as [|b' l].
        -- injection E as -> _. apply startsWithDash_iff in H1. congruence.
        -- injection E as <- ->. exists l, r. split; [reflexivity|]. split; [exact H1|]. split; [exact H2|].
           intros o Ho. apply H3. apply given_cons. now right.
Qed.

Lemma parseArgs_inr args : forall ps fs ps' fs',
  sorted ps ->
  parseArgs args ps fs = inr (ps', fs') ->
  sorted ps' /\ (forall o, In o ps' <-> In o ps \/ given o args) /\ fs' = fs ++ fileNames args /\ allKnown args.
Proof.
  induction args as [|b args IH]; intros ps fs ps' fs' Hs; cbn [parseArgs].
  - intros E. injection E as <- <-. split; [exact Hs|]. split; [|split; [cbn; now rewrite app_nil_r|]].
    + intros o. unfold given. cbn. tauto.
    + intros o [_ []].
  - rewrite fileNames_cons. destruct (startsWithDash b) eqn:Eb; [destruct (known b) eqn:Ek|].
    + intros E. apply IH in E; [|now apply setInsert_sorted]. destruct E as (H1 & H2 & H3 & H4).
      split; [exact H1|]. split; [|split; [exact H3|]].
      * intros o. rewrite H2, setInsert_in, given_cons. apply startsWithDash_iff in Eb. tauto.
      * intros o Ho. apply given_cons in Ho. destruct Ho as [[_ ->]|Ho]; [now apply known_iff|auto].
    + discriminate.
    + intros E. apply IH in E; [|exact Hs]. destruct E as (H1 & H2 & H3 & H4).
      assert (~ isOption b) as Hb by (rewrite <- startsWithDash_iff; congruence).
      split; [exact H1|]. split; [|split].
      * intros o. rewrite H2, given_cons. tauto.
      * rewrite H3, <- app_assoc. reflexivity.
      * intros o Ho. apply given_cons in Ho. destruct Ho as [[Hb' _]|Ho]; [tauto|auto].
Qed.

Lemma parseArgs_known args ps fs : allKnown args -> exists ps' fs', parseArgs args ps fs = inr (ps', fs').
Proof.
  intros H. destruct (parseArgs args ps fs) as [a|[ps' fs']] eqn:E; [|eauto].
  exfalso. apply parseArgs_inl in E. destruct E as (l & r & -> & H1 & H2 & _). apply H2, H.
  split; [exact H1|]. apply in_or_app. right. now left.
Qed.

(** ** Joining *)
Fixpoint words (s : string) : list string :=
  match s with
  | EmptyString => [""]
  | String c s =>
      if Ascii.eqb c " " then "" :: words s
      else match words s with
           | [] => []
           | w :: ws => String c w :: ws
           end
  end.
Fixpoint noSpace (s : string) : bool :=
  match s with
  | EmptyString => true
  | String c s => negb (Ascii.eqb c " ") && noSpace s
  end.
Definition isWord (s : string) : bool := negb (String.eqb s "") && noSpace s.

Lemma words_app w s : noSpace w = true -> words (w ++ String " " s)%string = w :: words s.
Proof.
  induction w as [|c w IH]; cbn; [reflexivity|].
  destruct (Ascii.eqb c " "); cbn; [discriminate|]. intros H. now rewrite IH.
Qed.
Lemma words_one w : noSpace w = true -> words w = [w].
Proof.
  induction w as [|c w IH]; cbn; [reflexivity|].
  destruct (Ascii.eqb c " "); cbn; [discriminate|]. intros H. now rewrite IH.
Qed.
Lemma words_concat l : l <> [] -> forallb isWord l = true -> words (String.concat " " l) = l.
Proof.
  induction l as [|a l IH]; [congruence|]. intros _. cbn [forallb]. intros H. apply andb_prop in H.
  destruct H as [Ha Hl]. apply andb_prop in Ha. destruct Ha as [_ Ha].
  destruct l as [|b l]; [now apply words_one|].
  change (String.concat " " (a :: b :: l)) with (a ++ String " " (String.concat " " (b :: l)))%string.
  rewrite words_app by exact Ha. f_equal. apply IH; [discriminate|exact Hl].
Qed.
Lemma concat_inj l l' :
  forallb isWord l = true -> forallb isWord l' = true -> String.concat " " l = String.concat " " l' -> l = l'.
Proof.
  intros H H' E. destruct l as [|a l].
  - destruct l' as [|b l']; [reflexivity|]. exfalso.
    pose proof (words_concat (b :: l') ltac:(discriminate) H') as W. rewrite <- E in W. cbn in W.
    injection W as <- _. cbn in H'. discriminate.
  - destruct l' as [|b l'].
    + exfalso. pose proof (words_concat (a :: l) ltac:(discriminate) H) as W. rewrite E in W. cbn in W.
      injection W as <- _. cbn in H. discriminate.
    + rewrite <- (words_concat (a :: l)), <- (words_concat (b :: l')) by (auto; discriminate). now rewrite E.
Qed.

(** ** The table *)
Definition keyWords (s : string) : list string := if String.eqb s "" then [] else words s.
Fixpoint sortedb (l : list string) : bool :=
  match l with
  | [] => true
  | a :: l => forallb (fun b => match String.compare a b with Lt => true | _ => false end) l && sortedb l
  end.
Lemma sortedb_sorted l : sortedb l = true -> sorted l.
Proof.
  induction l as [|a l IH]; cbn; [auto|]. intros H. apply andb_prop in H. destruct H as [H1 H2]. split; [|auto].
  intros b Hb. rewrite forallb_forall in H1. specialize (H1 b Hb). unfold slt.
  destruct (String.compare a b); congruence.
Qed.

Definition sameb (l l' : list string) : bool :=
  forallb (fun a => existsb (String.eqb a) l') l && forallb (fun a => existsb (String.eqb a) l) l'.
Lemma sameb_iff l l' : sameb l l' = true -> forall x, In x l <-> In x l'.
Proof.
  unfold sameb. intros H. apply andb_prop in H. destruct H as [H1 H2]. rewrite forallb_forall in H1, H2.
  intros x. split; intros Hx.
  - specialize (H1 x Hx). apply existsb_exists in H1. destruct H1 as (y & Hy & E). apply String.eqb_eq in E. now subst.
  - specialize (H2 x Hx). apply existsb_exists in H2. destruct H2 as (y & Hy & E). apply String.eqb_eq in E. now subst.
Qed.

Definition entryOK (e : string * plugin) : bool :=
  let ws := keyWords (fst e) in
  String.eqb (String.concat " " ws) (fst e) && sortedb ws && forallb known ws && sameb ws (features (snd e)).
Lemma table_ok : forallb entryOK optionCombinations = true.
Proof. vm_compute. reflexivity. Qed.

Lemma entry_words e : In e optionCombinations ->
  String.concat " " (keyWords (fst e)) = fst e /\ sorted (keyWords (fst e)) /\
  (forall o, In o (keyWords (fst e)) -> In o commandLineArguments) /\
  (forall o, In o (keyWords (fst e)) <-> In o (features (snd e))).
Proof.
  intros H. pose proof table_ok as T. rewrite forallb_forall in T. specialize (T e H). unfold entryOK in T.
  apply andb_prop in T. destruct T as [T T4]. apply andb_prop in T. destruct T as [T T3].
  apply andb_prop in T. destruct T as [T1 T2]. apply String.eqb_eq in T1.
  split; [exact T1|]. split; [now apply sortedb_sorted|]. split; [|now apply sameb_iff].
  intros o Ho. rewrite forallb_forall in T3. now apply known_iff, T3.
Qed.

Lemma known_isWord o : In o commandLineArguments -> isWord o = true.
Proof.
  assert (forallb isWord commandLineArguments = true) as T by (vm_compute; reflexivity).
  rewrite forallb_forall in T. apply T.
Qed.
Lemma known_isOption o : In o commandLineArguments -> isOption o.
Proof.
  assert (forallb startsWithDash commandLineArguments = true) as T by (vm_compute; reflexivity).
  rewrite forallb_forall in T. intros H. now apply startsWithDash_iff, T.
Qed.

Lemma keys_nodup : NoDup (List.map fst optionCombinations).
Proof.
  assert (forall l : list string, (fix nd l := match l with [] => true | a :: l => negb (existsb (String.eqb a) l) && nd l end) l = true -> NoDup l) as G.
  { induction l as [|a l IH]; intros H; constructor; apply andb_prop in H; destruct H as [H1 H2].
    - intros Ha. apply negb_true_iff in H1.
      assert (existsb (String.eqb a) l = true) by (apply existsb_exists; exists a; split; [exact Ha|apply String.eqb_refl]).
      congruence.
    - now apply IH. }
  apply G. vm_compute. reflexivity.
Qed.
Lemma keys_inj e e' : In e optionCombinations -> In e' optionCombinations -> fst e = fst e' -> e = e'.
Proof.
  pose proof keys_nodup as N. revert N. generalize optionCombinations. intros l.
  induction l as [|a l IH]; cbn; [tauto|]. intros N. inversion N as [|? ? N1 N2]; subst.
  intros [<-|He] [<-|He'] E; auto.
  - exfalso. apply N1. rewrite E. now apply in_map.
  - exfalso. apply N1. rewrite <- E. now apply in_map.
Qed.

(** ** main *)
Lemma main_known args : allKnown args ->
  exists ps, sorted ps /\ (forall o, In o ps <-> given o args) /\
    main args = match find (fun e => String.eqb (fst e) (String.concat " " ps)) optionCombinations with
                | None => NotPermissible
                | Some (_, p) => start p (fileNames args)
                end.
Proof.
  intros H. destruct (parseArgs_known args [] [] H) as (ps & fs & E). exists ps.
  destruct (parseArgs_inr args [] [] ps fs I E) as (H1 & H2 & H3 & _). split; [exact H1|]. split.
  - intros o. rewrite H2. cbn. tauto.
  - unfold main. rewrite E, H3. reflexivity.
Qed.

Lemma listed_find args ps p : allKnown args -> sorted ps -> (forall o, In o ps <-> given o args) ->
  listed args p -> exists k, find (fun e => String.eqb (fst e) (String.concat " " ps)) optionCombinations = Some (k, p).
Proof.
  intros Hk Hs Hin (ws & Hws & Hent).
  assert (forall l, (forall o, In o l -> In o commandLineArguments) -> forallb isWord l = true) as W.
  { intros l Hl. apply forallb_forall. intros o Ho. now apply known_isWord, Hl. }
  destruct (entry_words _ Hent) as (E1 & E2 & E3 & _). cbn [fst] in *.
  assert (keyWords (String.concat " " ws) = ws) as E4.
  { apply concat_inj; [now apply W|apply W|exact E1]. intros o Ho. now apply Hk, Hws. }
  rewrite E4 in E2.
  assert (ps = ws) as -> by (apply sorted_unique; auto; intros o; now rewrite Hin, Hws).
  destruct (find _ optionCombinations) as [[k q]|] eqn:F.
  - apply find_some in F. destruct F as [F1 F2]. apply String.eqb_eq in F2.
    pose proof (keys_inj _ _ F1 Hent F2) as E. exists k. congruence.
  - exfalso. pose proof (find_none _ _ F _ Hent) as N. cbn [fst] in N. rewrite String.eqb_refl in N. discriminate.
Qed.

Lemma find_listed args ps k p : (forall o, In o ps <-> given o args) ->
  find (fun e => String.eqb (fst e) (String.concat " " ps)) optionCombinations = Some (k, p) ->
  k = String.concat " " ps /\ In (k, p) optionCombinations /\ listed args p.
Proof.
  intros Hin F. apply find_some in F. destruct F as [F1 F2]. apply String.eqb_eq in F2. cbn in F2. subst k.
  split; [reflexivity|]. split; [exact F1|]. exists ps. split; auto.
Qed.

Lemma main_listed args p : allKnown args -> listed args p -> main args = start p (fileNames args).
Proof.
  intros H HL. destruct (main_known args H) as (ps & H1 & H2 & E).
  destruct (listed_find args ps p H H1 H2 HL) as [k F]. rewrite E, F. reflexivity.
Qed.
Lemma main_cases args :
  (exists a, main args = UnknownParameter a /\ ~ allKnown args) \/
  (main args = NotPermissible /\ allKnown args /\ forall p, ~ listed args p) \/
  (exists p, listed args p /\ allKnown args /\ main args = start p (fileNames args)).
Proof.
  destruct (parseArgs args [] []) as [a|[ps fs]] eqn:E.
  - left. exists a. split; [unfold main; now rewrite E|].
    apply parseArgs_inl in E. destruct E as (l & r & -> & H1 & H2 & _). intros H. apply H2, H.
    split; [exact H1|]. apply in_or_app. right. now left.
  - right. apply parseArgs_inr in E; [|exact I]. destruct E as (_ & _ & _ & H).
    destruct (main_known args H) as (qs & H1 & H2 & E).
    destruct (find _ optionCombinations) as [[k p]|] eqn:F.
    + right. exists p. split; [|split; [exact H|exact E]]. eapply find_listed; eauto.
    + left. split; [exact E|]. split; [exact H|]. intros p HL.
      destruct (listed_find args qs p H H1 H2 HL) as [k F']. congruence.
Qed.

Lemma start_not_unknown p fs a : start p fs <> UnknownParameter a.
Proof. unfold start. destruct construct as [st|]; [|discriminate]. destruct initFiles as [|[[|] r]]; discriminate. Qed.
Lemma start_not_np p fs : start p fs <> NotPermissible.
Proof. unfold start. destruct construct as [st|]; [|discriminate]. destruct initFiles as [|[[|] r]]; discriminate. Qed.
Lemma start_execute p fs q r : start p fs = Execute q r -> q = p.
Proof.
  unfold start. destruct construct as [st|]; [|discriminate]. destruct initFiles as [|[[|] s]]; try discriminate.
  intros E. now injection E as <- _.
Qed.

Lemma listed_words args ws : allKnown args -> (forall o, In o ws <-> given o args) ->
  forallb isWord ws = true.
Proof. intros Hk Hws. apply forallb_forall. intros o Ho. now apply known_isWord, Hk, Hws. Qed.
Lemma listed_features args p : allKnown args -> listed args p -> forall o, given o args <-> In o (features p).
Proof.
  intros Hk (ws & Hws & Hent) o. destruct (entry_words _ Hent) as (E1 & E2 & E3 & E4). cbn [fst snd] in *.
  assert (keyWords (String.concat " " ws) = ws) as E5.
  { apply concat_inj; [|eapply listed_words; eauto|exact E1].
    apply forallb_forall. intros x Hx. now apply known_isWord, E3. }
  rewrite E5 in E4. rewrite <- E4. symmetry. apply Hws.
Qed.
Lemma listed_entry args p : listed args p -> exists e, In e optionCombinations /\ snd e = p.
Proof. intros (ws & _ & H). eauto. Qed.

(** ** File names *)
Definition planRoles (n : nat) (out : nat) (fs : list string) : roles :=
  mkRoles (nth_error fs 0) (if Nat.eqb n 2 then nth_error fs 1 else None) (if Nat.eqb out 0 then None else Some (nth n fs "")).
Definition plan (opts fs : list string) (p : plugin) : Prop :=
  let n := inputs opts in
  start p fs =
    if Nat.ltb (List.length fs) (n + minOutputs opts) then
      MissingFile (match fs with
                   | [] => NoSpecification
                   | [_] => if Nat.eqb n 2 then NoSecondFile else NoOutput
                   | _ => NoOutput
                   end)
    else if Nat.ltb (n + maxOutputs opts) (List.length fs) then TooManyFiles
    else Execute p (planRoles n (maxOutputs opts) fs).

Lemma table_plan : Forall (fun e => has (features (snd e)) "--counterStrategy" = false ->
  forall fs, plan (features (snd e)) fs (snd e)) optionCombinations.
Proof.
  unfold optionCombinations.
  repeat (constructor; [cbn [snd]; first
    [ intros X; vm_compute in X; discriminate X
    | intros _; intros [|a [|b [|c [|d fs]]]]; vm_compute; reflexivity ]|]).
  constructor.
Qed.

Lemma has_iff l o : has l o = true <-> In o l.
Proof.
  unfold has. rewrite existsb_exists. split.
  - intros (x & Hx & E). apply String.eqb_eq in E. now subst.
  - intros H. exists o. split; [exact H|apply String.eqb_refl].
Qed.
Lemma has_same args p o : allKnown args -> listed args p -> In o commandLineArguments -> has args o = has (features p) o.
Proof.
  intros Hk HL Ho. pose proof (listed_features args p Hk HL o) as H.
  apply eq_true_iff_eq. rewrite !has_iff, <- H. unfold given. pose proof (known_isOption o Ho). tauto.
Qed.

Lemma listed_plan args p : allKnown args -> listed args p -> ~ In "--counterStrategy" args ->
  plan args (fileNames args) p.
Proof.
  intros Hk HL Hc. destruct HL as (ws & Hws & Hent) eqn:EHL. clear EHL.
  assert (listed args p) as HL' by (exists ws; auto).
  pose proof table_plan as T. rewrite Forall_forall in T. specialize (T _ Hent). cbn [snd] in T.
  unfold plan, inputs, minOutputs, maxOutputs in *.
  rewrite !(has_same args p) by (auto; cbn; tauto).
  apply T. rewrite <- (has_same args p) by (auto; cbn; tauto).
  apply not_true_iff_false. rewrite has_iff. exact Hc.
Qed.

Lemma table_counter : Forall (fun e => has (features (snd e)) "--counterStrategy" = true ->
  (forall f, start (snd e) [f] = Execute (snd e) (mkRoles (Some f) None (Some ""))) /\
  start (snd e) [] = Undefined /\
  (forall f g, start (snd e) [f; g] = Execute (snd e) (mkRoles (Some g) None (Some f))) /\
  (forall f g h fs, start (snd e) (f :: g :: h :: fs) = TooManyFiles)) optionCombinations.
Proof.
  unfold optionCombinations.
  repeat (constructor; [cbn [snd]; first
    [ intros X; vm_compute in X; discriminate X
    | intros _; split; [intros; vm_compute; reflexivity|split; [vm_compute; reflexivity|split; intros; vm_compute; reflexivity]]]|]).
  constructor.
Qed.
Lemma listed_counter args p : allKnown args -> listed args p -> In "--counterStrategy" args ->
  (forall f, start p [f] = Execute p (mkRoles (Some f) None (Some ""))) /\
  start p [] = Undefined /\
  (forall f g, start p [f; g] = Execute p (mkRoles (Some g) None (Some f))) /\
  (forall f g h fs, start p (f :: g :: h :: fs) = TooManyFiles).
Proof.
  intros Hk HL Hc. destruct (listed_entry args p HL) as (e & He & <-).
  pose proof table_counter as T. rewrite Forall_forall in T. apply T; [exact He|].
  rewrite <- (has_same args (snd e)) by (auto; cbn; tauto). now apply has_iff.
Qed.
Lemma counter_listed args : (forall o, given o args <-> o = "--counterStrategy") ->
  listed args (PExplicitCounter (PCounter PBase false)).
Proof.
  intros H. exists ["--counterStrategy"]. split.
  - intros o. rewrite H. cbn. intuition congruence.
  - apply (find_some (fun e => String.eqb (fst e) "--counterStrategy")). vm_compute. reflexivity.
Qed.
Lemma counter_listed_robotics args :
  (forall o, given o args <-> o = "--counterStrategy" \/ o = "--sysInitRoboticsSemantics") ->
  listed args (PExplicitCounter (PCounter PBase true)).
Proof.
  intros H. exists ["--counterStrategy"; "--sysInitRoboticsSemantics"]. split.
  - intros o. rewrite H. cbn. intuition congruence.
  - apply (find_some (fun e => String.eqb (fst e) "--counterStrategy --sysInitRoboticsSemantics")). vm_compute. reflexivity.
Qed.
