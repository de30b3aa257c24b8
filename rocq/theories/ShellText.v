(** * Sessions: reading commands *)

From Coq Require Import String Ascii NArith ZArith Arith List Bool Lia.
From Verif Require Import BDD Loop VarTypes Synth Solvers Explicit Counter Parser ShellSpec Shell.
Import ListNotations.
Local Open Scope list_scope.

Notation slen := String.length.

(** ** Reading consumes characters *)
Lemma skipWs_len s : slen (skipWs s) <= slen s.
Proof. induction s as [|a s IH]; cbn; auto. destruct (isspace a); cbn; lia. Qed.

Lemma takeDigits_len s : forall acc seen, slen (snd (takeDigits acc seen s)) <= slen s.
Proof.
  induction s as [|a s IH]; intros acc seen; cbn; auto. destruct (digit a); cbn; auto.
Qed.

Lemma takeLine_len s l r : takeLine s = (l, Some r) -> slen r < slen s.
Proof.
  revert l r. induction s as [|a s IH]; intros l r; cbn; [discriminate|].
  destruct (_ =? _)%char; [injection 1 as <- <-; lia|].
  destruct (takeLine s) as [l' r']. intros H. injection H as <- ->. specialize (IH l' r eq_refl). lia.
Qed.

Lemma getline_len i l j : getline i = (Some l, j) -> ended j = false -> slen (chars j) < slen (chars i) /\ failed j = false.
Proof.
  unfold getline. destruct (good i); cbn [negb]; [|discriminate].
  destruct (chars i) as [|a s] eqn:E; [injection 1 as <- <-; discriminate|].
  destruct (takeLine (String a s)) as [l' [r|]] eqn:T.
  - injection 1 as <- <-. intros _. cbn [chars failed]. apply takeLine_len in T. auto.
  - injection 1 as <- <-. discriminate.
Qed.

Lemma readChar_len i : slen (chars (snd (readChar i))) <= slen (chars i).
Proof.
  unfold readChar. destruct (good i); cbn [negb]; [|cbn; auto].
  pose proof (skipWs_len (chars i)) as H. destruct (skipWs (chars i)); cbn in *; lia.
Qed.

Lemma readInt_len i : slen (chars (snd (readInt i))) <= slen (chars i).
Proof.
  unfold readInt. destruct (good i); cbn [negb]; [|cbn; auto].
  pose proof (skipWs_len (chars i)) as H. destruct (skipWs (chars i)) as [|a r] eqn:E; [cbn; lia|].
  destruct (a =? "-")%char; [|destruct (a =? "+")%char];
    match goal with |- context[takeDigits 0 false ?s] => pose proof (takeDigits_len s 0 false) as T; destruct (takeDigits 0 false s) as [[n seen] rest] end;
    cbn in T, H; destruct (_ && _); cbn; lia.
Qed.

Lemma readUInt_len i : slen (chars (snd (readUInt i))) <= slen (chars i).
Proof.
  unfold readUInt. destruct (good i); cbn [negb]; [|cbn; auto].
  pose proof (skipWs_len (chars i)) as H. destruct (skipWs (chars i)) as [|a r] eqn:E; [cbn; lia|].
  destruct (a =? "-")%char; [|destruct (a =? "+")%char];
    match goal with |- context[takeDigits 0 false ?s] => pose proof (takeDigits_len s 0 false) as T; destruct (takeDigits 0 false s) as [[n seen] rest] end;
    cbn in T, H; destruct (negb seen); [cbn; lia|destruct (_ <=? _)%N; cbn; lia|cbn; lia|destruct (_ <=? _)%N; cbn; lia|cbn; lia|destruct (_ <=? _)%N; cbn; lia].
Qed.

Lemma readValues_len vars : forall i, slen (chars (snd (readValues vars i))) <= slen (chars i).
Proof.
  induction vars as [|v vars IH]; intros i; cbn; auto. pose proof (readInt_len i) as H.
  destruct (readInt i) as [z j]. cbn in H. specialize (IH j). destruct (readValues vars j) as [l k]. cbn in *. lia.
Qed.

Lemma readBits_len vars : forall f i g j, readBits vars f i = Next (g, j) -> slen (chars j) <= slen (chars i).
Proof.
  induction vars as [|v vars IH]; intros f i g j; cbn; [now injection 1 as <- <-|].
  pose proof (readChar_len i) as H. destruct (readChar i) as [[a|] k]; [|discriminate]. cbn in H.
  intros E. apply IH in E. lia.
Qed.

Lemma obind_next {A B} (x : outcome A) (f : A -> outcome B) b : obind x f = Next b ->
  exists a, x = Next a /\ f a = Next b.
Proof. destruct x; try discriminate. intros H. eauto. Qed.

Lemma exec_len rand c t cmd s i r s' i' : exec rand c t cmd s i = Next (r, s', i') ->
  slen (chars i') <= slen (chars i).
Proof.
  unfold exec. destruct (_ || _); [discriminate|].
  destruct (String.eqb _ _). { unfold startPos. injection 1 as <- <- <-. auto. }
  destruct (String.eqb _ _).
  { unfold checkTrans. pose proof (readValues_len (varsT c Pre) i) as H1.
    destruct (readValues (varsT c Pre) i) as [l1 i1]. pose proof (readValues_len (varsT c Post) i1) as H2.
    destruct (readValues (varsT c Post) i1) as [l2 i2]. intros H. apply obind_next in H. destruct H as (p & _ & H).
    injection H as <- <- <-. cbn in *. lia. }
  destruct (String.eqb _ _).
  { unfold setPos. pose proof (readValues_len (varsT c Pre) i) as H1.
    destruct (readValues (varsT c Pre) i) as [l1 i1]. injection 1 as <- <- <-. auto. }
  destruct (String.eqb _ _).
  { unfold move. destruct (bf_eqb _ _); [now injection 1 as <- <- <-|].
    pose proof (readUInt_len i) as H1. destruct (readUInt i) as [n i1]. cbn in H1.
    destruct (failed i1); [now injection 1 as <- <- <-|]. destruct n as [n|]; [|discriminate].
    destruct (_ <=? _)%N; [now injection 1 as <- <- <-|].
    destruct (isFalse _); [now injection 1 as <- <- <-|].
    pose proof (readValues_len (varsT c PostInput) i1) as H2.
    destruct (readValues (varsT c PostInput) i1) as [l i2]. cbn in H2.
    destruct (nth_error _ _); [|discriminate]. destruct (isFalse (band (band (sh_pos s) (cubeOfValues l)) b)).
    - injection 1 as <- <- <-. lia.
    - intros H. apply obind_next in H. destruct H as (p & _ & H). injection H as <- <- <-. lia. }
  destruct (String.eqb _ _).
  { destruct (negb _); [discriminate|]. intros H. apply obind_next in H. destruct H as ([f j] & E & H).
    apply obind_next in H. destruct H as (q & _ & H). apply readBits_len in E. injection H as -> <-. exact E. }
  destruct (String.eqb _ _).
  { intros H. apply obind_next in H. destruct H as ([f j] & E & H).
    apply obind_next in H. destruct H as (q & _ & H). apply readBits_len in E. injection H as -> <-. exact E. }
  destruct (String.eqb _ _); [now injection 1 as <- <- <-|].
  destruct (String.eqb _ _); [now injection 1 as <- <- <-|].
  destruct (String.eqb _ _); [now injection 1 as <- <- <-|].
  destruct (String.eqb _ _). { unfold getInit. injection 1 as <- <- <-. auto. }
  destruct (String.eqb _ _).
  { intros H. apply obind_next in H. destruct H as ([f j] & E & H).
    apply obind_next in H. destruct H as (q & _ & H). apply readBits_len in E. injection H as <- <- <-. exact E. }
  destruct (String.eqb _ _); [|now injection 1 as <- <- <-].
  intros H. apply obind_next in H. destruct H as ([f j] & E & H).
  apply obind_next in H. destruct H as ([f' j'] & E' & H). apply readBits_len in E. cbn [snd fst] in *. apply readBits_len in E'.
  pose proof (readUInt_len j') as H1. destruct (readUInt j') as [a j1]. cbn in H1.
  pose proof (readUInt_len j1) as H2. destruct (readUInt j1) as [g j2]. cbn in H2.
  destruct a as [a|], g as [g|]; try discriminate. apply obind_next in H. destruct H as (q & _ & H). injection H as <- <- <-. lia.
Qed.

Lemma nextCommand_len fuel : forall i l j, nextCommand fuel i = Next (l, j) ->
  slen (chars j) < slen (chars i) /\ ended j = false /\ failed j = false /\ l <> EmptyString.
Proof.
  induction fuel as [|fuel IH]; intros i l j; cbn; [discriminate|].
  destruct (getline i) as [[l'|] k] eqn:E; [|destruct (ended k); discriminate].
  destruct (ended k) eqn:Ek; [discriminate|]. destruct (getline_len i l' k E Ek) as [H1 H2].
  destruct l' as [|a l'].
  - intros H. apply IH in H. destruct H as (H3 & H4). split; [lia|exact H4].
  - injection 1 as <- <-. repeat split; auto. discriminate.
Qed.

(** ** Sessions without a bound on the number of commands *)
Definition sess (rand : nat -> bool) (c : ctx) (t : table) (s : shell) (i : stream) : list reply * ending :=
  session (S (slen (chars i))) rand c t s i.

Definition oneCommand (rand : nat -> bool) (c : ctx) (t : table) (s : shell) (i : stream) : outcome (reply * shell * stream) :=
  obind (nextCommand (S (S (slen (chars i)))) i) (fun r => exec rand c t (toUpper (trim (fst r))) s (snd r)).

Lemma oneCommand_len rand c t s i r s' i' : oneCommand rand c t s i = Next (r, s', i') ->
  slen (chars i') < slen (chars i).
Proof.
  unfold oneCommand. intros H. apply obind_next in H. destruct H as ([l j] & E & H).
  apply nextCommand_len in E. apply exec_len in H. cbn [snd] in H. lia.
Qed.

Lemma session_fuel rand c t : forall n m s i, slen (chars i) < n -> slen (chars i) < m ->
  session n rand c t s i = session m rand c t s i.
Proof.
  induction n as [|n IH]; intros m s i Hn Hm; [lia|]. destruct m as [|m]; [lia|].
  cbn [session]. fold (oneCommand rand c t s i).
  destruct (oneCommand rand c t s i) as [[[r s'] i']| | | | |] eqn:E; auto.
  apply oneCommand_len in E. rewrite (IH m s' i') by lia. reflexivity.
Qed.

Definition endingOf {A} (o : outcome A) : ending :=
  match o with
  | Next _ => NoFuel
  | Returned => Exits
  | Thrown => Throws
  | OutOfBounds => AccessesOutOfBounds
  | Uninitialised => UsesUninitialised
  | Loops => LoopsForever
  end.

Lemma sess_eq rand c t s i : sess rand c t s i =
  match oneCommand rand c t s i with
  | Next (r, s', i') => (r :: fst (sess rand c t s' i'), snd (sess rand c t s' i'))
  | o => ([], endingOf o)
  end.
Proof.
  unfold sess at 1. cbn [session]. fold (oneCommand rand c t s i).
  destruct (oneCommand rand c t s i) as [[[r s'] i']| | | | |] eqn:E; auto.
  apply oneCommand_len in E. unfold sess. rewrite (session_fuel rand c t _ (S (slen (chars i'))) s' i') by lia.
  now destruct (session _ rand c t s' i').
Qed.

Lemma interactive_sess alg rand c t input : startShell alg c = Some t ->
  interactive alg rand c input = Some (sess rand c t (mkShell bfalse 0 0) (mkStream input false false)).
Proof. intros H. unfold interactive. now rewrite H. Qed.

Lemma sess_fuel rand c t : forall s i, snd (sess rand c t s i) <> NoFuel.
Proof.
  intros s i. remember (slen (chars i)) as n eqn:E. revert s i E.
  induction n as [n IH] using lt_wf_ind. intros s i ->. rewrite sess_eq.
  destruct (oneCommand rand c t s i) as [[[r s'] i']| | | | |] eqn:E; try discriminate.
  apply oneCommand_len in E. cbn [snd]. now apply (IH _ E).
Qed.

(** ** Commands in a text *)
Local Open Scope string_scope.

Lemma app_assoc_s a b c : (a ++ b) ++ c = a ++ (b ++ c).
Proof. induction a as [|x a IH]; cbn; auto. now rewrite IH. Qed.
Lemma app_nil_s a : a ++ "" = a.
Proof. induction a as [|x a IH]; cbn; auto. now rewrite IH. Qed.

Fixpoint noNewline (s : string) : bool :=
  match s with EmptyString => true | String a s => negb (a =? "010")%char && noNewline s end.

Lemma takeLine_text l rest : noNewline l = true -> takeLine (l ++ newline ++ rest) = (l, Some rest).
Proof.
  induction l as [|a l IH]; cbn; auto. intros H. apply andb_true_iff in H. destruct H as [H1 H2].
  destruct (a =? "010")%char; [discriminate|]. change (String "010" rest) with (newline ++ rest). now rewrite IH.
Qed.

Lemma nextCommand_text fuel l rest : noNewline l = true -> l <> "" ->
  nextCommand (S fuel) (mkStream (l ++ newline ++ rest) false false) = Next (l, mkStream rest false false).
Proof.
  intros H1 H2. cbn [nextCommand]. unfold getline. cbn [good failed ended chars negb andb].
  rewrite takeLine_text by auto. destruct l as [|a l]; [now elim H2|]. cbn. reflexivity.
Qed.

Lemma nextCommand_blank fuel rest :
  nextCommand (S fuel) (mkStream (newline ++ rest) false false) = nextCommand fuel (mkStream rest false false).
Proof. reflexivity. Qed.

Lemma nextCommand_end fuel : nextCommand (S fuel) (mkStream "" false false) = Returned.
Proof. reflexivity. Qed.

(** Streams that begin with the text of a command, or with an empty line and that text. *)
Inductive before (rest : string) : stream -> Prop :=
| before_same : before rest (mkStream rest false false)
| before_blank : before rest (mkStream (newline ++ rest) false false).

Lemma before_command rest i l rest' : before rest i -> rest = l ++ newline ++ rest' -> noNewline l = true -> l <> "" ->
  forall k, nextCommand (S (S (slen (chars i) + k))) i = Next (l, mkStream rest' false false).
Proof.
  intros [|] -> H1 H2 k; [now apply nextCommand_text|]. rewrite nextCommand_blank. now apply nextCommand_text.
Qed.

Lemma sess_end rand c t s i : before "" i -> sess rand c t s i = ([], Exits).
Proof. intros [|]; rewrite sess_eq; reflexivity. Qed.

Lemma sess_command rand c t s rest i l rest' : before rest i -> rest = l ++ newline ++ rest' -> noNewline l = true -> l <> "" ->
  oneCommand rand c t s i = exec rand c t (toUpper (trim l)) s (mkStream rest' false false).
Proof.
  intros H1 H2 H3 H4. unfold oneCommand. pose proof (before_command rest i l rest' H1 H2 H3 H4 0) as E.
  rewrite Nat.add_0_r in E. rewrite E. reflexivity.
Qed.

(** Reading bits. *)
Definition bitLits (vars : list nat) (l : list bool) (f : BF) : BF :=
  fold_left (fun f e => band f (literal (fst e) (snd e))) (combine vars l) f.

Lemma readBits_bits vars : forall l f rest, List.length l = List.length vars ->
  readBits vars f (mkStream (bitsText l ++ rest) false false) = Next (bitLits vars l f, mkStream rest false false).
Proof.
  induction vars as [|v vars IH]; intros [|b l] f rest H; try discriminate; [reflexivity|].
  injection H as H. cbn [readBits bitsText append].
  replace (readChar _) with (Some (if b then "1" else "0")%char, mkStream (bitsText l ++ rest) false false) by now destruct b.
  rewrite IH by auto. now destruct b.
Qed.

(** ** Individual commands *)
Lemma exec_makeTrans rand c t s i : t_realizable t = true ->
  exec rand c t "XMAKETRANS" s i =
  obind (readBits (varsT c PostInput) btrue i) (fun r => obind (makeTrans None c t s (fst r)) (fun q => Next (q, snd r))).
Proof. intros H. unfold exec. rewrite H. reflexivity. Qed.
Lemma exec_makeTransRandom rand c t s i :
  exec rand c t "XMAKETRANSRANDOM" s i =
  obind (readBits (varsT c PostInput) btrue i) (fun r => obind (makeTrans (Some rand) c t s (fst r)) (fun q => Next (q, snd r))).
Proof. reflexivity. Qed.
Lemma exec_getInit rand c t s i : exec rand c t "XGETINIT" s i = Next (getInit c t s, i).
Proof. reflexivity. Qed.
Lemma exec_completeInit rand c t s i : exec rand c t "XCOMPLETEINIT" s i =
  obind (readBits (varsT c PreInput ++ varsT c PreOutput)%list btrue i) (fun r =>
  obind (completeInit c t (fst r)) (fun q => Next (q, s, snd r))).
Proof. reflexivity. Qed.
