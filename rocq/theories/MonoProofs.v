(** * Weaker specifications are easier to realize *)

From Coq Require Import String Ascii List Bool Arith NArith Lia.
From Verif Require Import BDD Loop Spec VarTypes Synth Sem FormulaSpec Parser ParserProofs FileSpec GameExt FileProofs MinCoreSpec Execute.
Import ListNotations.
Open Scope string_scope.

(** ** Renaming the variables of a game *)

Section RENAME.
  Variables g g' : game.
  Variable N : nat.
  Variables sg tu : nat -> nat.
  Hypothesis Hts : forall k, tu (sg k) = k.
  Hypothesis Hout : forall k, g_out g' (sg k) = g_out g k.
  Variable f : strategy.

  Definition pull (s : state) : state := fun k => s (sg k).

  Fixpoint rebuildR (h : list state) : list state :=
    match h with
    | [] => []
    | s :: h => let r := rebuildR h in merge g (norm g N (pull s)) (f r (norm g N (pull s))) :: r
    end.
  Definition renamed : strategy := fun h x k => f (rebuildR h) (norm g N (pull x)) (tu k).

  Lemma norm_mergeR x y : norm g N (pull (merge g' x y)) = norm g N (pull x).
  Proof. apply norm_eq. intros k _ Hk. unfold pull, merge. now rewrite Hout, Hk. Qed.

  Lemma history_renamed x n :
    rebuildR (history g' renamed x n) = history g f (fun m => norm g N (pull (x m))) n.
  Proof.
    induction n as [|n IH]; cbn [history rebuildR].
    - now rewrite norm_mergeR.
    - now rewrite norm_mergeR, IH.
  Qed.

  Lemma play_renamed x :
    agree N (fun n => pull (play g' renamed x n)) (play g f (fun m => norm g N (pull (x m)))).
  Proof.
    intros n k Hk. unfold play, pull. destruct n as [|n]; cbn [history hd]; unfold merge; rewrite Hout.
    - destruct (g_out g k) eqn:E; [unfold renamed; now rewrite Hts|]. now rewrite norm_val.
    - destruct (g_out g k) eqn:E.
      + unfold renamed at 1. now rewrite history_renamed, Hts.
      + now rewrite norm_val.
  Qed.
End RENAME.

(** ** Renaming the variables of a formula *)

Fixpoint rename (r : nat -> nat) (f : fml) : fml :=
  match f with
  | FTrue => FTrue
  | FFalse => FFalse
  | FVar i => FVar (r i)
  | FNot f => FNot (rename r f)
  | FAnd f g => FAnd (rename r f) (rename r g)
  | FOr f g => FOr (rename r f) (rename r g)
  | FXor f g => FXor (rename r f) (rename r g)
  | FBuf fs => FBuf (map (rename r) fs)
  | FRecall k => FRecall k
  end.

Lemma gram_rename (var var' : string -> nat -> Prop) bound loose r :
  (forall w i, var w i -> var' w (r i)) ->
  (forall m f ws, gram var bound loose m f ws -> gram var' bound loose m (rename r f) ws) /\
  (forall n i fs ws, gramL var bound loose n i fs ws -> gramL var' bound loose n i (map (rename r) fs) ws).
Proof.
  intros H. apply gram_mutind; intros; cbn [rename map]; econstructor; eauto. now rewrite map_length.
Qed.

Lemma den_rename (var : string -> nat -> Prop) bound loose r e :
  (forall m f ws, gram var bound loose m f ws -> forall mem, den e mem (rename r f) = den (fun i => e (r i)) mem f) /\
  (forall n i fs ws, gramL var bound loose n i fs ws -> forall m last,
     denL e (map (rename r) fs) m last = denL (fun i => e (r i)) fs m last).
Proof.
  apply gram_mutind; intros; cbn [rename map]; try reflexivity;
    try solve [cbn [den]; congruence].
  - rewrite !den_buf. auto.
  - cbn [denL]. rewrite H0. apply H2.
Qed.

(** ** Declarations *)

Definition decls (L : items) : items := filter (fun p => negb (formulaSection (fst p))) L.

Lemma declared_decls L : declared L = flat_map (fun p => [snd p; snd p ++ "'"]) (decls L).
Proof. induction L as [|[[] l] L IH]; [reflexivity|..]; unfold decls, declared in *; cbn; rewrite ?IH; reflexivity. Qed.
Lemma outputs_decls L : outputs L = map (fun p => sec_eqb (fst p) SOutput) (decls L).
Proof. induction L as [|[[] l] L IH]; [reflexivity|..]; unfold decls, outputs in *; cbn; rewrite ?IH; reflexivity. Qed.

Lemma nth_decl_even (D : items) k :
  nth_error (flat_map (fun p => [snd p; snd p ++ "'"]) D) (2 * k) = option_map snd (nth_error D k).
Proof.
  revert k. induction D as [|p D IH]; intros [|k]; [reflexivity..|].
  replace (2 * S k) with (S (S (2 * k))) by lia. cbn [flat_map app nth_error]. apply IH.
Qed.
Lemma nth_decl_odd (D : items) k :
  nth_error (flat_map (fun p => [snd p; snd p ++ "'"]) D) (2 * k + 1) = option_map (fun p => snd p ++ "'") (nth_error D k).
Proof.
  revert k. induction D as [|p D IH]; intros [|k]; [reflexivity| |reflexivity|].
  - replace (2 * S k + 1) with (S (2 * k + 2)) by lia. reflexivity.
  - replace (2 * S k + 1) with (S (S (2 * k + 1))) by lia. cbn [flat_map app nth_error]. apply IH.
Qed.

Lemma decls_NoDup L : NoDup (declared L) -> NoDup (map snd (decls L)).
Proof.
  rewrite declared_decls. generalize (decls L). intros D. induction D as [|p D IH]; cbn [flat_map app map]; intros H; constructor.
  - intros X. inversion H as [|? ? H1 _]; subst. apply H1. right. apply in_flat_map.
    apply in_map_iff in X. destruct X as (q & E & Hq). exists q. split; auto. rewrite E. now left.
  - apply IH. inversion H as [|? ? _ H2]; subst. now inversion H2.
Qed.

Fixpoint posOf (n : string) (D : items) : nat :=
  match D with
  | [] => 0
  | p :: D => if String.eqb (snd p) n then 0 else S (posOf n D)
  end.

Lemma posOf_nth (D : items) p : NoDup (map snd D) -> In p D -> nth_error D (posOf (snd p) D) = Some p.
Proof.
  induction D as [|q D IH]; cbn [map]; intros ND H; [contradiction|]. inversion ND as [|? ? N1 N2]; subst.
  cbn [posOf]. destruct (String.eqb_spec (snd q) (snd p)) as [E|E].
  - destruct H as [->|H]; [reflexivity|]. exfalso. apply N1. rewrite E. now apply in_map.
  - destruct H as [->|H]; [congruence|]. cbn [nth_error]. auto.
Qed.

Lemma posOf_eq (D : items) k p : NoDup (map snd D) -> nth_error D k = Some p -> posOf (snd p) D = k.
Proof.
  intros ND H. pose proof (nth_error_In _ _ H) as Hin. pose proof (posOf_nth D p ND Hin) as E.
  rewrite NoDup_nth_error in ND. apply ND.
  - rewrite map_length. apply nth_error_Some. congruence.
  - rewrite (map_nth_error snd _ _ E), (map_nth_error snd _ _ H). reflexivity.
Qed.

(** Variable [k] of one file in the other one. *)
Definition moveTo (D D' : items) (k : nat) : nat :=
  match nth_error D k with Some p => posOf (snd p) D' | None => k end.

Section MOVE.
  Variables D D' : items.
  Hypothesis ND : NoDup (map snd D).
  Hypothesis ND' : NoDup (map snd D').
  Hypothesis Same : forall p, In p D <-> In p D'.

  Lemma NoDup_items (E : items) : NoDup (map snd E) -> NoDup E.
  Proof. apply NoDup_map_inv. Qed.

  Lemma same_length : length D = length D'.
  Proof.
    apply Nat.le_antisymm; apply NoDup_incl_length; try (now apply NoDup_items); intros p; apply Same.
  Qed.

  Lemma moveTo_nth k p : nth_error D k = Some p -> nth_error D' (moveTo D D' k) = Some p.
  Proof.
    intros H. unfold moveTo. rewrite H. apply posOf_nth; auto. apply Same. eapply nth_error_In; eauto.
  Qed.
  Lemma moveTo_over k : nth_error D k = None -> nth_error D' (moveTo D D' k) = None.
  Proof.
    intros H. unfold moveTo. rewrite H. apply nth_error_None. rewrite <- same_length. now apply nth_error_None.
  Qed.
  Lemma moveTo_back k : moveTo D' D (moveTo D D' k) = k.
  Proof.
    unfold moveTo at 1. destruct (nth_error D k) as [p|] eqn:E.
    - rewrite (moveTo_nth _ _ E). now apply posOf_eq.
    - rewrite (moveTo_over _ E). unfold moveTo. now rewrite E.
  Qed.
End MOVE.

(** ** Files *)

Definition lift (sg : nat -> nat) (i : nat) : nat := if Nat.even i then 2 * sg (Nat.div2 i) else 2 * sg (Nat.div2 i) + 1.

Lemma valuation_lift sg s t i : valuation s t (lift sg i) = valuation (fun k => s (sg k)) (fun k => t (sg k)) i.
Proof.
  unfold valuation, lift. destruct (Nat.even i).
  - now rewrite even_double, Nat.div2_double.
  - now rewrite even_double1, div2_double1.
Qed.

Lemma den_ext_env (var : string -> nat -> Prop) bound loose e e' : (forall w i, var w i -> e i = e' i) ->
  (forall m f ws, gram var bound loose m f ws -> forall mem, den e mem f = den e' mem f) /\
  (forall n i fs ws, gramL var bound loose n i fs ws -> forall m last, denL e fs m last = denL e' fs m last).
Proof.
  intros E. apply gram_mutind; intros; try reflexivity; try solve [cbn [den]; congruence].
  - cbn [den]. f_equal. eauto.
  - rewrite !den_buf. auto.
  - cbn [denL]. rewrite H0. apply H2.
Qed.

Lemma in_linesOf s line L : In line (linesOf s L) <-> In (s, line) L.
Proof.
  unfold linesOf. rewrite in_map_iff. split.
  - intros ([s' l] & <- & H). apply filter_In in H. destruct H as [H1 H2]. apply sec_eqb_eq in H2. cbn in *. now subst.
  - intros H. exists (s, line). split; auto. apply filter_In. split; auto. now apply sec_eqb_eq.
Qed.

Lemma Forall2_in_l {A B} (R : A -> B -> Prop) l l' a : Forall2 R l l' -> In a l -> exists b, In b l' /\ R a b.
Proof. induction 1 as [|x y l l' H HF IH]; intros []; subst; [exists y; cbn; auto|]. destruct IH as (b & ? & ?); auto. exists b; cbn; auto. Qed.
Lemma Forall2_in_r {A B} (R : A -> B -> Prop) l l' b : Forall2 R l l' -> In b l' -> exists a, In a l /\ R a b.
Proof. induction 1 as [|x y l l' H HF IH]; intros []; subst; [exists x; cbn; auto|]. destruct IH as (a & ? & ?); auto. exists a; cbn; auto. Qed.

Section FILES.
  Variables L L' : items.
  Hypothesis ND : NoDup (declared L).
  Hypothesis ND' : NoDup (declared L').
  Hypothesis Less : demands_less L L'.
  Variables fs fs' : section -> list fml.
  Hypothesis F : formulas_of true L fs.
  Hypothesis F' : formulas_of true L' fs'.

  Let D := decls L.
  Let D' := decls L'.
  Let sg := moveTo D D'.

  Lemma sameDecls p : In p D <-> In p D'.
  Proof.
    unfold D, D', decls. rewrite !filter_In. destruct Less as (H & _). destruct p as [s l]. cbn [fst].
    destruct (formulaSection s) eqn:E; cbn; [split; intros [_ X]; discriminate|]. now rewrite (H s l E).
  Qed.

  Lemma sg_var s w i : file_var L s w i -> file_var L' s w (lift sg i).
  Proof.
    unfold file_var. intros [H1 H2]. rewrite declared_decls in H1. rewrite declared_decls.
    assert (K : exists p, nth_error D (Nat.div2 i) = Some p /\ (Nat.even i = true /\ w = snd p \/ Nat.even i = false /\ w = snd p ++ "'")).
    { destruct (even_cases i) as [[k ->]|[k ->]].
      - rewrite nth_decl_even in H1. rewrite Nat.div2_double. fold D in H1. destruct (nth_error D k) as [p|]; [|discriminate].
        exists p. split; auto. left. rewrite even_double. cbn in H1. injection H1 as ->. auto.
      - rewrite nth_decl_odd in H1. rewrite div2_double1. fold D in H1. destruct (nth_error D k) as [p|]; [|discriminate].
        exists p. split; auto. right. rewrite even_double1. cbn in H1. injection H1 as <-. auto. }
    destruct K as (p & Hp & K).
    assert (M : nth_error D' (sg (Nat.div2 i)) = Some p).
    { exact (moveTo_nth D D' (decls_NoDup _ ND') sameDecls _ _ Hp). }
    assert (O : nth (Nat.div2 (lift sg i)) (outputs L') false = nth (Nat.div2 i) (outputs L) false).
    { assert (Ed : Nat.div2 (lift sg i) = sg (Nat.div2 i)).
      { unfold lift. destruct (Nat.even i); [now rewrite Nat.div2_double|now rewrite div2_double1]. }
      rewrite Ed, !outputs_decls. fold D D'.
      rewrite (nth_error_nth _ _ _ (map_nth_error _ _ _ M)). now rewrite (nth_error_nth _ _ _ (map_nth_error _ _ _ Hp)). }
    split.
    - unfold lift. destruct K as [[Ev ->]|[Ev ->]]; rewrite Ev.
      + rewrite nth_decl_even. fold D'. now rewrite M.
      + rewrite nth_decl_odd. fold D'. now rewrite M.
    - rewrite O. replace (Nat.odd (lift sg i)) with (Nat.odd i); auto.
      unfold lift, Nat.odd. destruct (Nat.even i) eqn:Ev; cbn [negb]; [now rewrite even_double|now rewrite even_double1].
  Qed.

  Lemma file_var_fun s w i j : file_var L' s w i -> file_var L' s w j -> i = j.
  Proof.
    intros [H1 _] [H2 _]. pose proof ND' as N. rewrite NoDup_nth_error in N. apply N; [|congruence].
    apply nth_error_Some. congruence.
  Qed.

  (** The formula of a line has the same meaning in both files. *)
  Lemma line_formula s line f f' st st' :
    gram (file_var L s) maxNumber true 0 f (words line) -> gram (file_var L' s) maxNumber true 0 f' (words line) ->
    holds f' (valuation st st') = holds f (valuation (fun k => st (sg k)) (fun k => st' (sg k))).
  Proof.
    intros G G'. assert (f' = rename (lift sg) f) as ->.
    { eapply (gram_unique (file_var L' s)); [apply file_var_fun|exact G'|].
      eapply gram_rename; [|exact G]. intros w i. apply sg_var. }
    unfold holds. rewrite (proj1 (den_rename _ _ _ (lift sg) (valuation st st')) _ _ _ G).
    rewrite (proj1 (den_ext_env _ _ _ _ _ (fun _ i _ => valuation_lift sg st st' i)) _ _ _ G). reflexivity.
  Qed.

  Lemma holds_old s f' : guarantees s = true -> In f' (fs' s) ->
    exists f, In f (fs s) /\ forall (st st' : state), holds f' (valuation st st') = holds f (valuation (fun k => st (sg k)) (fun k => st' (sg k))).
  Proof.
    intros Hg Hf. assert (Hs : formulaSection s = true) by (destruct s; cbn in *; congruence).
    destruct (Forall2_in_r _ _ _ _ (F' s Hs) Hf) as (line & Hl & G').
    apply in_linesOf in Hl. destruct Less as (_ & _ & H). apply H in Hl; auto. apply in_linesOf in Hl.
    destruct (Forall2_in_l _ _ _ _ (F s Hs) Hl) as (f & Hin & G). exists f. split; auto.
    intros. eapply line_formula; eauto.
  Qed.
  Lemma holds_new s f : assumes s = true -> In f (fs s) ->
    exists f', In f' (fs' s) /\ forall (st st' : state), holds f' (valuation st st') = holds f (valuation (fun k => st (sg k)) (fun k => st' (sg k))).
  Proof.
    intros Hg Hf. assert (Hs : formulaSection s = true) by (destruct s; cbn in *; congruence).
    destruct (Forall2_in_r _ _ _ _ (F s Hs) Hf) as (line & Hl & G).
    apply in_linesOf in Hl. destruct Less as (_ & H & _). apply H in Hl; auto. apply in_linesOf in Hl.
    destruct (Forall2_in_l _ _ _ _ (F' s Hs) Hl) as (f' & Hin & G'). exists f'. split; auto.
    intros. eapply line_formula; eauto.
  Qed.

  Lemma all_old s st st' : guarantees s = true ->
    forallb (fun f => holds f (valuation (fun k => st (sg k)) (fun k => st' (sg k)))) (fs s) = true ->
    forallb (fun f => holds f (valuation st st')) (fs' s) = true.
  Proof.
    intros Hg H. rewrite forallb_forall in *. intros f' Hf. destruct (holds_old s f' Hg Hf) as (f & Hin & E).
    rewrite E. auto.
  Qed.
  Lemma all_new s st st' : assumes s = true ->
    forallb (fun f => holds f (valuation st st')) (fs' s) = true ->
    forallb (fun f => holds f (valuation (fun k => st (sg k)) (fun k => st' (sg k)))) (fs s) = true.
  Proof.
    intros Hg H. rewrite forallb_forall in *. intros f Hf. destruct (holds_new s f Hg Hf) as (f' & Hin & E).
    rewrite <- E. auto.
  Qed.

  Lemma objective_old pi : objective (file_game L fs) (fun n k => pi n (sg k)) -> objective (file_game L' fs') pi.
  Proof.
    unfold objective, safe_and_live, file_game. cbn [g_initE g_initS g_safeE g_safeS g_liveA g_liveG].
    intros H HI. apply (all_new SEnvInit) in HI; [|reflexivity]. destruct (H HI) as (H1 & H2 & H3). split; [|split].
    - now apply (all_old SSysInit).
    - intros n Hn. apply (all_old SSysTrans); [reflexivity|]. apply H2. intros m Hm. apply (all_new SEnvTrans); [reflexivity|]. auto.
    - intros HE HA p Hp. apply in_map_iff in Hp. destruct Hp as (f' & <- & Hf).
      destruct (holds_old SSysLive f' eq_refl Hf) as (f & Hin & E). intros n.
      destruct (H3 (fun n => all_new SEnvTrans _ _ eq_refl (HE n))) with (p := fun st st' => holds f (valuation st st')) (n := n) as (m & Hm & X).
      + intros q Hq. apply in_map_iff in Hq. destruct Hq as (a & <- & Ha).
        destruct (holds_new SEnvLive a eq_refl Ha) as (a' & Hin' & E'). intros k.
        destruct (HA (fun st st' => holds a' (valuation st st'))) with (n := k) as (m & Hm & X).
        * apply in_map_iff. eauto.
        * exists m. split; auto. now rewrite <- E'.
      + apply in_map_iff. eauto.
      + exists m. split; auto. now rewrite E.
  Qed.

  Lemma out_move k : g_out (file_game L' fs') (sg k) = g_out (file_game L fs) k.
  Proof.
    cbn [file_game g_out]. rewrite !outputs_decls. fold D D'. unfold sg. destruct (nth_error D k) as [p|] eqn:E.
    - rewrite (nth_error_nth _ _ _ (map_nth_error _ _ _ E)).
      rewrite (nth_error_nth _ _ _ (map_nth_error _ _ _ (moveTo_nth D D' (decls_NoDup _ ND') sameDecls k p E))). reflexivity.
    - pose proof (moveTo_over D D' (decls_NoDup _ ND) (decls_NoDup _ ND') sameDecls k E) as E'.
      apply nth_error_None in E, E'. rewrite !nth_overflow by (rewrite map_length; auto). reflexivity.
  Qed.

  (** A strategy for one file can be played in the other one. *)
  Lemma strategy_move N : forall f, exists f', forall x, exists x',
    agree N (fun n k => play (file_game L' fs') f' x n (sg k)) (play (file_game L fs) f x').
  Proof.
    intros f. exists (renamed (file_game L fs) N sg (moveTo D' D) f). intros x. eexists.
    apply (play_renamed (file_game L fs) (file_game L' fs') N sg (moveTo D' D)).
    - intros k. apply moveTo_back; try now apply decls_NoDup. apply sameDecls.
    - apply out_move.
  Qed.
End FILES.

(** The objective of a file depends on its variables only. *)
Lemma file_agree L fs pi pi' : formulas_of true L fs -> agree (length (outputs L)) pi pi' ->
  objective (file_game L fs) pi' -> objective (file_game L fs) pi.
Proof.
  intros F A.
  assert (T : forall s f, formulaSection s = true -> In f (fs s) -> forall n m,
    holds f (valuation (pi n) (pi m)) = holds f (valuation (pi' n) (pi' m))).
  { intros s f Hs Hf n m. destruct (Forall2_in_r _ _ _ _ (F s Hs) Hf) as (line & _ & G). unfold holds.
    assert (V : forall w i, file_var L s w i -> valuation (pi n) (pi m) i = valuation (pi' n) (pi' m) i).
    { intros w i [V _]. assert (Hi : i < length (declared L)) by (apply nth_error_Some; congruence).
      rewrite <- length_outputs in Hi. unfold valuation. apply div2_lt in Hi. destruct (Nat.even i); apply A; exact Hi. }
    now rewrite (proj1 (den_ext_env _ _ _ _ _ V) _ _ _ G). }
  assert (B : forall s, formulaSection s = true -> forall n m,
    forallb (fun f => holds f (valuation (pi n) (pi m))) (fs s) = forallb (fun f => holds f (valuation (pi' n) (pi' m))) (fs s)).
  { intros s Hs n m. apply eq_true_iff_eq. rewrite !forallb_forall.
    split; intros H f Hf; specialize (H f Hf); [rewrite <- (T s f Hs Hf n m)|rewrite (T s f Hs Hf n m)]; exact H. }
  unfold objective, safe_and_live, file_game. cbn [g_initE g_initS g_safeE g_safeS g_liveA g_liveG].
  intros H HI. rewrite (B SEnvInit eq_refl) in HI. destruct (H HI) as (H1 & H2 & H3). split; [now rewrite (B SSysInit eq_refl)|]. split.
  - intros n Hn. rewrite (B SSysTrans eq_refl). apply H2. intros m Hm. rewrite <- (B SEnvTrans eq_refl). auto.
  - intros HE HA p Hp. apply in_map_iff in Hp. destruct Hp as (f & <- & Hf). intros n.
    destruct (H3 (fun n => eq_trans (eq_sym (B SEnvTrans eq_refl n (S n))) (HE n))) with (p := fun st st' => holds f (valuation st st')) (n := n)
      as (m & Hm & X).
    + intros q Hq. apply in_map_iff in Hq. destruct Hq as (a & <- & Ha). intros k.
      destruct (HA (fun st st' => holds a (valuation st st'))) with (n := k) as (m & Hm & X); [apply in_map_iff; eauto|].
      exists m. split; auto. now rewrite <- (T SEnvLive a eq_refl Ha).
    + apply in_map_iff; eauto.
    + exists m. split; auto. now rewrite (T SSysLive f eq_refl Hf).
Qed.

Section MONO.
  Variables L L' : items.
  Hypothesis ND : NoDup (declared L).
  Hypothesis ND' : NoDup (declared L').
  Hypothesis Less : demands_less L L'.

  Lemma realizable_mono fs fs' : formulas_of true L fs -> formulas_of true L' fs' ->
    realizable (file_game L fs) -> realizable (file_game L' fs').
  Proof.
    intros F F' (f & Hf). destruct (strategy_move L L' ND ND' Less fs fs' (length (outputs L)) f) as (f' & Hf').
    exists f'. intros x. destruct (Hf' x) as (x' & A). apply (objective_old L L' ND' Less fs fs' F F').
    eapply file_agree; eauto.
  Qed.

  Lemma defeat_mono fs fs' : formulas_of true L fs -> formulas_of true L' fs' ->
    (forall f, exists x, ~ objective (file_game L' fs') (play (file_game L' fs') f x)) ->
    (forall f, exists x, ~ objective (file_game L fs) (play (file_game L fs) f x)).
  Proof.
    intros F F' H f. destruct (strategy_move L L' ND ND' Less fs fs' (length (outputs L)) f) as (f' & Hf').
    destruct (H f') as (x & Hx). destruct (Hf' x) as (x' & A). exists x'. intros O. apply Hx.
    apply (objective_old L L' ND' Less fs fs' F F'). eapply file_agree; eauto.
  Qed.

  Lemma formulas_mono fs : formulas_of true L fs -> (forall s line, formulaSection s = true -> In (s, line) L' -> In (s, line) L) ->
    exists fs', formulas_of true L' fs'.
  Proof.
    intros F Sub.
    assert (One : forall s, exists fl, formulaSection s = true ->
       Forall2 (fun line f => gram (file_var L' s) maxNumber true 0 f (words line)) (linesOf s L') fl).
    { intros s. destruct (formulaSection s) eqn:Hs; [|exists []; discriminate].
      assert (P : forall line, In line (linesOf s L') -> exists f, gram (file_var L' s) maxNumber true 0 f (words line)).
      { intros line Hl. apply in_linesOf in Hl. apply Sub in Hl; auto. apply in_linesOf in Hl.
        destruct (Forall2_in_l _ _ _ _ (F s Hs) Hl) as (f & _ & G). eexists.
        eapply gram_rename; [|exact G]. intros w i. apply sg_var; auto. }
      revert P. induction (linesOf s L') as [|l ls IH]; intros P; [exists []; constructor|].
      destruct (P l (or_introl eq_refl)) as (f & G). destruct IH as (fl & IH); [intros; apply P; now right|].
      exists (f :: fl). intros X. constructor; auto. }
    destruct (One SEnvInit) as (f1 & H1). destruct (One SSysInit) as (f2 & H2).
    destruct (One SEnvTrans) as (f3 & H3). destruct (One SSysTrans) as (f4 & H4).
    destruct (One SEnvLive) as (f5 & H5). destruct (One SSysLive) as (f6 & H6).
    exists (fun s => match s with SEnvInit => f1 | SSysInit => f2 | SEnvTrans => f3 | SSysTrans => f4
               | SEnvLive => f5 | SSysLive => f6 | _ => [] end).
    intros s Hs; destruct s; try discriminate Hs; cbn beta iota; auto.
  Qed.
End MONO.
