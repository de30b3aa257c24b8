(** * Proofs: resilience for a great number of violations is resilience for any number

    If the system can be made resilient against many violations of the assumptions of level 1, then also
    against any number of violations.  Hence the search over the levels ends.  The argument is
    classical. *)

From Coq Require Import Arith List Bool Lia Classical.
From Verif Require Import Spec GameExt MixedSpec MixedGame.
Import ListNotations.

(** ** Descending chains over finite sets become stable *)
Section CHAIN.
  Variable A : Type.
  Variable V : nat -> A -> Prop.
  Hypothesis desc : forall j a, V (S j) a -> V j a.
  Fixpoint bnd (n : nat) : nat := match n with O => 0 | S n => S (2 * bnd n) end.
  Lemma desc_le j i a : j <= i -> V i a -> V j a.
  Proof. induction 1 as [|i H IH]; auto. Qed.
  Lemma chain_stable : forall (l : list A) b, exists j, b <= j /\ j <= b + bnd (length l) /\ forall a, In a l -> V j a -> V (S j) a.
  Proof.
    induction l as [|a l IH]; intros b; cbn [length bnd].
    - exists b. split; [lia|]. split; [lia|]. intros a [].
    - destruct (IH b) as (j1 & H1 & H2 & H3). destruct (classic (V j1 a -> V (S j1) a)) as [C|C].
      + exists j1. split; [lia|]. split; [lia|]. intros x [<-|Hx]; auto.
      + destruct (IH (S j1)) as (j2 & K1 & K2 & K3). exists j2. split; [lia|]. split; [lia|]. intros x [<-|Hx]; auto. intros Vx. elim C. intros _. now apply (desc_le (S j1) j2).
  Qed.
End CHAIN.
(** ** Choice for finitely many indices *)
Lemma finite_choice {B} (R : list bool -> B -> Prop) (b0 : B) : forall l, (forall a, In a l -> exists b, R a b) -> exists F, forall a, In a l -> R a (F a).
Proof.
  induction l as [|a l IH]; intros H; [exists (fun _ => b0); intros a []|].
  destruct IH as (F & HF). { intros x Hx. apply H. now right. }
  destruct (H a (or_introl eq_refl)) as (b & Hb). exists (fun x => if list_eq_dec Bool.bool_dec x a then b else F x).
  intros x Hx. destruct (list_eq_dec Bool.bool_dec x a) as [E|E]; [subst; exact Hb|]. destruct Hx as [Hx|Hx]; [congruence|auto].
Qed.
Fixpoint allCodes (n : nat) : list (list bool) :=
  match n with O => [[]] | S n => map (cons true) (allCodes n) ++ map (cons false) (allCodes n) end.
Lemma allCodes_in : forall l, In l (allCodes (length l)).
Proof. induction l as [|[] l IH]; cbn [length allCodes]; [now left|..]; apply in_or_app; [left|right]; now apply in_map. Qed.

Section PUMP.
  Variable G : game.
  Variable N : nat.
  Variable asm : list ((state -> state -> bool) * nat).
  Hypothesis dE : forall s s', same N s s' -> g_initE G s = g_initE G s'.
  Hypothesis dSafe : same2 N (g_safeS G).
  Hypothesis dA : forall p, In p (g_liveA G) -> same2 N p.
  Hypothesis dG : forall p, In p (g_liveG G) -> same2 N p.
  Hypothesis dAsm : forall a, In a asm -> same2 N (fst a).

  Definition counted1 : nat := length (filter (fun a => (snd a =? 1)) asm).
  Lemma viol_bound s t : violations asm s t <= counted1.
  Proof. unfold violations, counted1. clear dAsm. induction asm as [|a l IH]; cbn [filter length]; [lia|]. destruct (snd a =? 1); cbn [andb length]; [|exact IH]. destruct (negb (fst a s t)); cbn [length]; lia. Qed.
  Lemma viol_undisturbed s t : ~ disturbed asm s t -> violations asm s t = 0.
  Proof.
    intros H. unfold violations. destruct (filter _ asm) as [|a l] eqn:E; [reflexivity|]. elim H. assert (Ha : In a (filter (fun a => (snd a =? 1) && negb (fst a s t)) asm)) by (rewrite E; now left).
    apply filter_In in Ha. destruct Ha as [Ha T]. apply andb_true_iff in T. destruct T as [T1 T2]. apply Nat.eqb_eq in T1. apply negb_true_iff in T2. exists a. repeat split; auto. lia.
  Qed.
  Definition distB (s t : state) : bool := existsb (fun a => negb (snd a =? 0) && negb (fst a s t)) asm.
  Lemma distB_spec s t : distB s t = true <-> disturbed asm s t.
  Proof.
    unfold distB, disturbed. rewrite existsb_exists. split; intros (a & Ha & T).
    - apply andb_true_iff in T. destruct T as [T1 T2]. apply negb_true_iff in T1, T2. apply Nat.eqb_neq in T1. exists a. auto.
    - destruct T as [T1 T2]. exists a. split; auto. rewrite T2. apply Nat.eqb_neq in T1. now rewrite T1.
  Qed.

  (** ** Winning from a position with a count *)
  Fixpoint hist (f : countedStrategy) (p : countedState) (x : nat -> state) (n : nat) : list countedState :=
    match n with
    | O => [p]
    | S n => let h := hist f p x n in let y := f h (x n) in (merge G (x n) (fst y), snd y) :: h
    end.
  Definition at_ (f : countedStrategy) (p : countedState) (x : nat -> state) (n : nat) : countedState := hd (fun _ => false, 0) (hist f p x n).
  Definition wins (k : nat) (pi : nat -> countedState) : Prop :=
    (forall n, (forall m, m <= n -> stepE asm k (pi m) (pi (S m))) -> stepS G asm (pi n) (pi (S n))) /\
    ((forall n, stepE asm k (pi n) (pi (S n))) ->
     (forall a, In a (g_liveA G) -> often (fun p q => snd p <> 0 \/ a (fst p) (fst q) = true) pi) ->
     (forall goal, In goal (g_liveG G) -> often (fun p q => disturbed asm (fst p) (fst q) \/ goal (fst p) (fst q) = true) pi) /\
     often (fun p q => disturbed asm (fst p) (fst q) \/ snd q = 0) pi).
  Definition winsBy (k : nat) (f : countedStrategy) (p : countedState) : Prop := forall x, wins k (at_ f p x).

  Lemma hist_ne f p x n : exists q h, hist f p x n = q :: h.
  Proof. destruct n; cbn [hist]; eauto. Qed.
  Lemma hist_ext f p x x' n : (forall i, i < n -> x i = x' i) -> hist f p x n = hist f p x' n.
  Proof. induction n as [|n IH]; intros H; cbn [hist]; [reflexivity|]. rewrite IH by (intros; apply H; lia). now rewrite (H n) by lia. Qed.

  (** The rest of a won play. *)
  Definition splice (n : nat) (x x' : nat -> state) (i : nat) : state := if i <? n then x i else x' (i - n).
  Lemma hist_rest f p x n x' i : hist (fun h => f (h ++ tl (hist f p x n))) (at_ f p x n) x' i ++ tl (hist f p x n) = hist f p (splice n x x') (n + i).
  Proof.
    induction i as [|i IH].
    - rewrite Nat.add_0_r. cbn [hist]. rewrite (hist_ext f p (splice n x x') x n) by (intros i Hi; unfold splice; destruct (Nat.ltb_spec i n); [reflexivity|lia]).
      unfold at_. destruct (hist_ne f p x n) as (q & h & ->). reflexivity.
    - rewrite <- plus_n_Sm. cbn [hist app]. rewrite IH. assert (E : splice n x x' (n + i) = x' i). { unfold splice. destruct (Nat.ltb_spec (n + i) n); [lia|]. f_equal. lia. }
      now rewrite E.
  Qed.
  Lemma at_rest f p x n x' i : at_ (fun h => f (h ++ tl (hist f p x n))) (at_ f p x n) x' i = at_ f p (splice n x x') (n + i).
  Proof.
    unfold at_ at 1 3. rewrite <- hist_rest. destruct (hist_ne (fun h => f (h ++ tl (hist f p x n))) (at_ f p x n) x' i) as (q & h & ->). reflexivity.
  Qed.
  Lemma at_splice f p x n x' i : i <= n -> at_ f p (splice n x x') i = at_ f p x i.
  Proof. intros H. unfold at_. rewrite (hist_ext f p (splice n x x') x i); [reflexivity|]. intros j Hj. unfold splice. destruct (Nat.ltb_spec j n); [reflexivity|lia]. Qed.
  Lemma wins_shift k pi n : (forall m, m < n -> stepE asm k (pi m) (pi (S m))) -> wins k pi -> wins k (fun i => pi (n + i)).
  Proof.
    intros P [W1 W2]. split.
    - intros i A. rewrite <- plus_n_Sm. apply W1. intros m Hm. destruct (Nat.lt_ge_cases m n) as [L|L]; [now apply P|]. specialize (A (m - n) ltac:(lia)). rewrite <- plus_n_Sm in A. now replace (n + (m - n)) with m in A by lia.
    - intros A As. assert (OF : forall R, often R (fun i => pi (n + i)) <-> often R pi).
      { intros R. split; intros O j.
        - destruct (O j) as (i & Hi & H). exists (n + i). split; [lia|]. now rewrite <- plus_n_Sm in H.
        - destruct (O (n + j)) as (i & Hi & H). exists (i - n). split; [lia|]. rewrite <- plus_n_Sm. now replace (n + (i - n)) with i by lia. }
      destruct W2 as (G1 & G2).
      + intros i. destruct (Nat.lt_ge_cases i n) as [L|L]; [now apply P|]. specialize (A (i - n)). rewrite <- plus_n_Sm in A. now replace (n + (i - n)) with i in A by lia.
      + intros a Ha. apply OF. now apply As.
      + split; [intros goal Hg; apply OF; now apply G1|now apply OF].
  Qed.
  Lemma wins_ext k pi rho : (forall n, pi n = rho n) -> wins k pi -> wins k rho.
  Proof.
    intros E [W1 W2]. split.
    - intros n A. rewrite <- !E. apply W1. intros m Hm. rewrite !E. now apply A.
    - intros A As. destruct W2 as (G1 & G2).
      + intros n. rewrite !E. apply A.
      + intros a Ha n. destruct (As a Ha n) as (m & Hm & D). exists m. rewrite !E. auto.
      + split; [intros goal Hg n; destruct (G1 goal Hg n) as (m & Hm & D)|intros n; destruct (G2 n) as (m & Hm & D)]; exists m; rewrite <- !E; auto.
  Qed.
  Lemma win_rest k f p x n : winsBy k f p -> (forall m, m < n -> stepE asm k (at_ f p x m) (at_ f p x (S m))) ->
    winsBy k (fun h => f (h ++ tl (hist f p x n))) (at_ f p x n).
  Proof.
    intros W A x'. apply (wins_ext k (fun i => at_ f p (splice n x x') (n + i))); [intros i; symmetry; apply at_rest|].
    apply wins_shift; [|apply W]. intros m Hm. rewrite !at_splice by lia. now apply A.
  Qed.

  (** Fewer counts and the same variables. *)
  Let nrm := norm G N.
  Section LOWER.
    Variables (k k' c : nat) (s s' : state) (f : countedStrategy).
    Hypothesis Hs : same N s s'.
    Hypothesis Hk : c + k' <= k.
    Fixpoint real (h : list countedState) : list countedState :=
      match h with
      | [] => []
      | q :: h => match h with
                  | [] => [(s, c)]
                  | _ => let r := real h in let y := f r (nrm (fst q)) in (merge G (nrm (fst q)) (fst y), snd y) :: r
                  end
      end.
    Definition lowered : countedStrategy := fun h x => let y := f (real h) (nrm x) in (fst y, snd y - c).
    Lemma nrm_merge x y : nrm (merge G x y) = nrm x.
    Proof. apply norm_eq. intros v _ Hv. unfold merge. now rewrite Hv. Qed.
    Lemma real_hist x n : real (hist lowered (s', 0) x n) = hist f (s, c) (fun i => nrm (x i)) n.
    Proof.
      induction n as [|n IH]; [reflexivity|]. cbn [hist]. destruct (hist_ne lowered (s', 0) x n) as (q & h & E). cbn [real]. rewrite E at 1. rewrite IH. cbn [fst]. now rewrite nrm_merge.
    Qed.
    Lemma lowered_at x n : same N (fst (at_ lowered (s', 0) x n)) (fst (at_ f (s, c) (fun i => nrm (x i)) n)) /\ snd (at_ lowered (s', 0) x n) = snd (at_ f (s, c) (fun i => nrm (x i)) n) - c.
    Proof.
      unfold at_. destruct n as [|n]; cbn [hist hd fst snd].
      - split; [|lia]. intros v Hv. symmetry. now apply Hs.
      - unfold lowered at 1 3. rewrite real_hist. cbn [fst snd]. split; [|reflexivity]. intros v Hv. unfold merge. destruct (g_out G v) eqn:O; [reflexivity|]. symmetry. now apply norm_val.
    Qed.
    Lemma wins_lower : winsBy k f (s, c) -> winsBy k' lowered (s', 0).
    Proof.
      intros W x. destruct (W (fun i => nrm (x i))) as [W1 W2]. set (pi := at_ lowered (s', 0) x) in *. set (rho := at_ f (s, c) (fun i => nrm (x i))) in *.
      assert (H1 : forall n, same N (fst (pi n)) (fst (rho n))) by (intros n; apply (lowered_at x n)). assert (H2 : forall n, snd (pi n) = snd (rho n) - c) by (intros n; apply (lowered_at x n)).
      assert (VE : forall n, violations asm (fst (pi n)) (fst (pi (S n))) = violations asm (fst (rho n)) (fst (rho (S n)))) by (intros n; apply (violations_same N); auto).
      assert (DE : forall n, disturbed asm (fst (rho n)) (fst (rho (S n))) -> disturbed asm (fst (pi n)) (fst (pi (S n)))).
      { intros n. apply (disturbed_same N); auto; intros v Hv; symmetry; now apply H1. }
      assert (SE : forall n, stepE asm k' (pi n) (pi (S n)) -> stepE asm k (rho n) (rho (S n))).
      { intros n [Z C]. split; [intros a Ha Sa; rewrite <- (Z a Ha Sa); symmetry; now apply (dAsm a Ha)|]. rewrite VE, H2 in C. lia. }
      split.
      - intros n A. destruct (W1 n) as [S1 S2]. { intros m Hm. apply SE. now apply A. }
        split; [rewrite <- S1; now apply dSafe|]. rewrite VE, !H2. lia.
      - intros A As. destruct W2 as (G1 & G2).
        + intros n. now apply SE.
        + intros a Ha n. destruct (As a Ha n) as (m & Hm & D). exists m. split; auto. destruct D as [D|D]; [left; rewrite H2 in D; lia|right]. rewrite <- D. symmetry. now apply (dA a Ha).
        + split.
          * intros goal Hg n. destruct (G1 goal Hg n) as (m & Hm & [D|D]); exists m; (split; [exact Hm|]); [left; now apply DE|right]. rewrite <- D. now apply (dG goal Hg).
          * intros n. destruct (G2 n) as (m & Hm & [D|D]); exists m; (split; [exact Hm|]); [left; now apply DE|right]. rewrite H2. lia.
    Qed.
  End LOWER.

  (** ** Codes of positions *)
  Definition code (s : state) : list bool := map s (seq 0 N).
  Definition dec (l : list bool) : state := fun v => nth v l false.
  Lemma code_len s : length (code s) = N.
  Proof. unfold code. now rewrite map_length, seq_length. Qed.
  Lemma dec_code s : same N (dec (code s)) s.
  Proof.
    intros v Hv. unfold dec, code. rewrite (nth_indep _ false (s 0)) by (rewrite map_length, seq_length; exact Hv). rewrite map_nth, seq_nth by exact Hv. reflexivity.
  Qed.
  Definition Win (k : nat) (l : list bool) : Prop := exists f, winsBy k f (dec l, 0).

  Section COMPOSE.
    Variable K : nat.
    Hypothesis mK : counted1 <= K.
    Hypothesis stable : forall l, length l = N -> Win (K - counted1) l -> Win K l.
    Variable F : list bool -> countedStrategy.
    Hypothesis FW : forall l, length l = N -> Win K l -> winsBy K (F l) (dec l, 0).
    Variable f0 : countedStrategy.
    Hypothesis W0 : forall x, mixedObjective G asm K (countedPlay G f0 x).
    Variable R : game.
    Hypothesis rOut : g_out R = g_out G.
    Hypothesis rInitE : forall s, g_initE R s = g_initE G s.
    Hypothesis rInitS : forall s, g_initS R s = g_initS G s.
    Hypothesis rSafeE : forall s t, g_safeE R s t = true <-> forall a, In a asm -> snd a = 0 -> fst a s t = true.
    Hypothesis rSafeS : forall s t, g_safeS R s t = g_safeS G s t.
    Hypothesis rLiveA : g_liveA R = g_liveA G.
    Hypothesis rLiveG : forall p, In p (g_liveG R) -> exists goal, In goal (g_liveG G) /\ forall s t, disturbed asm s t \/ goal s t = true -> p s t = true.

    Definition restart (s : state) : list bool * list countedState := (code s, [(dec (code s), 0)]).
    Fixpoint seg (h : list state) : list bool * list countedState :=
      match h with
      | [] => ([], [])
      | s :: h =>
          match h with
          | [] => restart s
          | p :: _ =>
              if distB p s then restart s
              else let '(l, r) := seg h in let y := F l r (nrm s) in (l, (merge G (nrm s) (fst y), snd y) :: r)
          end
      end.
    Definition composed : strategy := fun h x =>
      match h with
      | [] => fst (f0 [] x)
      | _ => fst (F (fst (seg h)) (snd (seg h)) (nrm x))
      end.

    Variable x : nat -> state.
    Let H := history R composed x.
    Let pi := play R composed x.
    Lemma H_cons n : H (S n) = pi (S n) :: H n.
    Proof. reflexivity. Qed.
    Lemma H_hd n : exists h, H n = pi n :: h.
    Proof. destruct n; [exists []; reflexivity|eexists; reflexivity]. Qed.
    Lemma merge_R a b v : merge R a b v = merge G a b v.
    Proof. unfold merge. now rewrite rOut. Qed.
    Lemma nrm_mergeR a b : nrm (merge R a b) = nrm a.
    Proof. apply norm_eq. intros v _ Hv. rewrite merge_R. unfold merge. now rewrite Hv. Qed.

    Definition inputsFrom (j i : nat) : state := nrm (x (S (j + i))).
    Definition sim (j : nat) : nat -> countedState := at_ (F (code (pi j))) (dec (code (pi j)), 0) (inputsFrom j).
    (** The current part of the play began at position [j]. *)
    Definition InvAt (j n : nat) : Prop :=
      j <= n /\ seg (H n) = (code (pi j), hist (F (code (pi j))) (dec (code (pi j)), 0) (inputsFrom j) (n - j)) /\
      winsBy K (F (code (pi j))) (dec (code (pi j)), 0) /\
      (forall i, i <= n - j -> same N (pi (j + i)) (fst (sim j i)) /\ snd (sim j i) = 0) /\
      (forall i, i < n - j -> ~ disturbed asm (pi (j + i)) (pi (S (j + i)))).
    Lemma InvAt_start j : winsBy K (F (code (pi j))) (dec (code (pi j)), 0) -> seg (H j) = restart (pi j) -> InvAt j j.
    Proof.
      intros W E. split; [lia|]. rewrite Nat.sub_diag. split; [exact E|]. split; [exact W|]. split; [|intros i Hi; lia].
      intros i Hi. replace i with 0 by lia. rewrite Nat.add_0_r. split; [|reflexivity]. intros v Hv. symmetry. now apply dec_code.
    Qed.
    Lemma sim_next j n : InvAt j n -> same N (pi (S n)) (fst (sim j (S (n - j)))).
    Proof.
      intros (L & E & _). destruct (H_hd n) as (h & Eh).
      assert (EP : pi (S n) = merge R (x (S n)) (fst (F (code (pi j)) (hist (F (code (pi j))) (dec (code (pi j)), 0) (inputsFrom j) (n - j)) (nrm (x (S n)))))).
      { change (pi (S n)) with (merge R (x (S n)) (composed (H n) (x (S n)))). unfold composed. rewrite Eh. rewrite <- Eh, E. reflexivity. }
      rewrite EP. unfold sim, at_. cbn [hist hd fst]. assert (EI : inputsFrom j (n - j) = nrm (x (S n))) by (unfold inputsFrom; do 2 f_equal; lia). rewrite EI.
      intros v Hv. rewrite merge_R. unfold merge. destruct (g_out G v) eqn:O; [reflexivity|]. symmetry. now apply norm_val.
    Qed.
    Lemma sim_stepE j n : InvAt j n -> (forall m, m <= n -> g_safeE R (pi m) (pi (S m)) = true) -> forall i, i <= n - j -> stepE asm K (sim j i) (sim j (S i)).
    Proof.
      intros I A i Hi. pose proof I as (L & _ & _ & S1 & U). destruct (S1 i Hi) as [Q1 Q2].
      assert (Q3 : same N (pi (S (j + i))) (fst (sim j (S i)))).
      { destruct (Nat.eq_dec i (n - j)) as [D|D]; [subst i; replace (j + (n - j)) with n by lia; now apply sim_next|]. replace (S (j + i)) with (j + S i) by lia. apply S1. lia. }
      specialize (A (j + i) ltac:(lia)). split.
      - intros a Ha Sa. rewrite <- (proj1 (rSafeE _ _) A a Ha Sa). symmetry. now apply (dAsm a Ha).
      - rewrite Q2. pose proof (viol_bound (fst (sim j i)) (fst (sim j (S i)))). lia.
    Qed.
    Lemma sim_safe j n : InvAt j n -> (forall m, m <= n -> g_safeE R (pi m) (pi (S m)) = true) -> stepS G asm (sim j (n - j)) (sim j (S (n - j))).
    Proof. intros I A. pose proof I as (L & _ & W & _). destruct (W (inputsFrom j)) as [W1 _]. apply W1. intros m Hm. now apply (sim_stepE j n). Qed.
    Lemma InvAt_undisturbed j n : InvAt j n -> (forall m, m <= n -> g_safeE R (pi m) (pi (S m)) = true) -> ~ disturbed asm (pi n) (pi (S n)) -> InvAt j (S n).
    Proof.
      intros I A D. pose proof I as (L & E & W & S1 & U). pose proof (sim_next j n I) as SN. destruct (sim_safe j n I A) as [_ C]. destruct (S1 (n - j) ltac:(lia)) as [Q1 Q2]. replace (j + (n - j)) with n in Q1 by lia.
      assert (V0 : violations asm (fst (sim j (n - j))) (fst (sim j (S (n - j)))) = 0).
      { apply viol_undisturbed. intros X. apply D. revert X. apply (disturbed_same N); auto; intros v Hv; symmetry; [now apply Q1|now apply SN]. }
      split; [lia|]. replace (S n - j) with (S (n - j)) by lia. split; [|split; [exact W|split]].
      - rewrite H_cons. destruct (H_hd n) as (h & Eh). cbn [seg]. rewrite Eh. destruct (distB (pi n) (pi (S n))) eqn:B; [apply distB_spec in B; contradiction|]. rewrite <- Eh, E. cbn [hist].
        assert (EI : nrm (pi (S n)) = inputsFrom j (n - j)). { change (pi (S n)) with (merge R (x (S n)) (composed (H n) (x (S n)))). rewrite nrm_mergeR. unfold inputsFrom. do 2 f_equal. lia. }
        now rewrite EI.
      - intros i Hi. destruct (Nat.eq_dec i (S (n - j))) as [Ei|Ei]; [|apply S1; lia]. subst i. replace (j + S (n - j)) with (S n) by lia. split; [exact SN|]. lia.
      - intros i Hi. destruct (Nat.eq_dec i (n - j)) as [Ei|Ei]; [|apply U; lia]. subst i. now replace (j + (n - j)) with n by lia.
    Qed.
    Lemma InvAt_disturbed j n : InvAt j n -> (forall m, m <= n -> g_safeE R (pi m) (pi (S m)) = true) -> disturbed asm (pi n) (pi (S n)) -> InvAt (S n) (S n).
    Proof.
      intros I A D. pose proof I as (L & E & W & S1 & U). pose proof (sim_next j n I) as SN. destruct (sim_safe j n I A) as [_ C]. destruct (S1 (n - j) ltac:(lia)) as [Q1 Q2].
      pose proof (viol_bound (fst (sim j (n - j))) (fst (sim j (S (n - j))))) as VB. rewrite Q2 in C.
      apply InvAt_start.
      - apply FW; [apply code_len|]. apply stable; [apply code_len|].
        pose proof (win_rest K (F (code (pi j))) (dec (code (pi j)), 0) (inputsFrom j) (S (n - j)) W ltac:(intros m Hm; apply (sim_stepE j n I A); lia)) as WR. fold (sim j (S (n - j))) in WR.
        destruct (sim j (S (n - j))) as [t c] eqn:ES. cbn [fst snd] in *.
        eexists. eapply (wins_lower K (K - counted1) c t (dec (code (pi (S n))))); [|lia|exact WR].
        intros v Hv. rewrite dec_code by exact Hv. symmetry. now apply SN.
      - rewrite H_cons. destruct (H_hd n) as (h & Eh). cbn [seg]. rewrite Eh. now rewrite (proj2 (distB_spec _ _) D).
    Qed.

    (** The beginning. *)
    Definition first (n : nat) : state := x n.
    Lemma hist_first f (z : nat -> state) n : hist f (merge G (z 0) (fst (f [] (z 0))), snd (f [] (z 0))) (fun i => z (S i)) n = countedHistory G f z n.
    Proof. induction n as [|n IH]; cbn [hist countedHistory]; [reflexivity|]. now rewrite IH. Qed.
    Lemma start_eq v : pi 0 v = fst (countedPlay G f0 x 0) v.
    Proof. unfold pi, play, countedPlay. cbn [history countedHistory hd composed fst]. apply merge_R. Qed.
    Lemma start_win : g_initE G (pi 0) = true -> (g_initS G (fst (countedPlay G f0 x 0)) = true) /\ InvAt 0 0.
    Proof.
      intros IE. assert (IE' : g_initE G (fst (countedPlay G f0 x 0)) = true) by (rewrite <- IE; apply dE; intros v _; symmetry; apply start_eq).
      destruct (W0 x IE') as ((I1 & I2) & _). split; [exact I1|]. apply InvAt_start; [|reflexivity].
      apply FW; [apply code_len|]. set (p := (merge G (x 0) (fst (f0 [] (x 0))), snd (f0 [] (x 0)))).
      assert (Ep : countedPlay G f0 x 0 = p) by reflexivity. rewrite Ep in I2. cbn [p snd] in I2.
      assert (WB : winsBy K f0 p).
      { intros z. set (z' := fun n => match n with O => x 0 | S n => z n end). assert (EQ : forall n, countedPlay G f0 z' n = at_ f0 p z n).
        { intros n. unfold countedPlay, at_. rewrite <- (hist_first f0 z' n). reflexivity. }
        apply (wins_ext K (countedPlay G f0 z')); [exact EQ|]. destruct (W0 z') as (_ & Q1 & Q2); [exact IE'|]. split; [exact Q1|exact Q2]. }
      destruct p as [t c] eqn:E2. cbn [snd] in I2. unfold p in E2. assert (Ec : c = 0) by (apply (f_equal snd) in E2; cbn [snd] in E2; congruence). subst c.
      eexists. eapply (wins_lower K K 0 t (dec (code (pi 0)))); [|lia|exact WB]. intros v Hv. rewrite dec_code by exact Hv.
      rewrite start_eq, Ep. reflexivity.
    Qed.
    Lemma InvAt_all : g_initE G (pi 0) = true -> forall n, (forall m, m < n -> g_safeE R (pi m) (pi (S m)) = true) -> exists j, InvAt j n.
    Proof.
      intros IE. induction n as [|n IH]; intros A; [exists 0; now apply start_win|]. destruct IH as (j & I). { intros m Hm. apply A. lia. }
      assert (A' : forall m, m <= n -> g_safeE R (pi m) (pi (S m)) = true) by (intros m Hm; apply A; lia).
      destruct (distB (pi n) (pi (S n))) eqn:B; [exists (S n); apply (InvAt_disturbed j); auto; now apply distB_spec|]. exists j. apply InvAt_undisturbed; auto. rewrite <- distB_spec. congruence.
    Qed.
    Lemma composed_wins : g_initS G (pi 0) = g_initS G (fst (countedPlay G f0 x 0)) -> objective R pi.
    Proof.
      intros EI IE. rewrite rInitE in IE. destruct (start_win IE) as [I1 _]. split; [rewrite rInitS, EI; exact I1|]. split.
      - intros n A. destruct (InvAt_all IE n) as (j & I). { intros m Hm. apply A. lia. }
        destruct (sim_safe j n I A) as [Sf _]. rewrite rSafeS, <- Sf. pose proof I as (L & _ & _ & S1 & _). destruct (S1 (n - j) ltac:(lia)) as [Q1 _]. replace (j + (n - j)) with n in Q1 by lia.
        apply dSafe; [exact Q1|now apply sim_next].
      - intros A As p Hp. destruct (rLiveG p Hp) as (goal & Hg & GP).
        destruct (classic (forall n, exists m, n <= m /\ disturbed asm (pi m) (pi (S m)))) as [D|D].
        + intros n. destruct (D n) as (m & Hm & Dm). exists m. split; auto.
        + assert (exists n0, forall m, n0 <= m -> ~ disturbed asm (pi m) (pi (S m))) as (n0 & U).
          { apply NNPP. intros X. apply D. intros n. apply NNPP. intros Y. apply X. exists n. intros m Hm Dm. apply Y. eauto. }
          destruct (InvAt_all IE n0 (fun m _ => A m)) as (j & I0).
          assert (I : forall i, InvAt j (n0 + i)).
          { induction i as [|i IH]; [now rewrite Nat.add_0_r|]. rewrite <- plus_n_Sm. apply InvAt_undisturbed; auto. apply U. lia. }
          assert (L : j <= n0) by apply I0.
          assert (SS : forall i, same N (pi (j + i)) (fst (sim j i)) /\ snd (sim j i) = 0) by (intros i; destruct (I i) as (_ & _ & _ & S1 & _); apply S1; lia).
          assert (SS' : forall i, same N (pi (S (j + i))) (fst (sim j (S i)))) by (intros i; rewrite plus_n_Sm; apply SS).
          assert (SE : forall i, stepE asm K (sim j i) (sim j (S i))) by (intros i; apply (sim_stepE j (n0 + i) (I i) (fun m _ => A m)); lia).
          pose proof I0 as (_ & _ & W & _). destruct (W (inputsFrom j)) as [_ W2]. fold (sim j) in W2. destruct W2 as [G1 _]; [exact SE| |].
          * intros a Ha n. rewrite <- rLiveA in Ha. destruct (As a Ha (j + n)) as (m & Hm & T). rewrite rLiveA in Ha. exists (m - j). split; [lia|]. right. rewrite <- T.
            replace (pi m) with (pi (j + (m - j))) by (f_equal; lia). replace (pi (S m)) with (pi (S (j + (m - j)))) by (f_equal; lia). symmetry. apply (dA a Ha); [apply SS|apply SS'].
          * intros n. destruct (G1 goal Hg n) as (m & Hm & T). exists (j + m). split; [lia|]. apply GP. destruct T as [T|T]; [left|right].
            -- revert T. apply (disturbed_same N); auto; intros v Hv; symmetry; [now apply SS|now apply SS'].
            -- rewrite <- T. apply (dG goal Hg); [apply SS|apply SS'].
    Qed.
  End COMPOSE.

  (** A bound for the number of violations. *)
  Definition enough : nat := S (bnd (length (allCodes N))) * counted1.
  Lemma Win_desc k k' l : k' <= k -> Win k l -> Win k' l.
  Proof. intros H (f & W). eexists. eapply (wins_lower k k' 0 (dec l) (dec l)); [intros v _; reflexivity|lia|exact W]. Qed.
  Hypothesis dS : forall s s', same N s s' -> g_initS G s = g_initS G s'.
  Theorem many_any k (R : game) : enough <= k -> mixedRealizable G asm k ->
    g_out R = g_out G -> (forall s, g_initE R s = g_initE G s) -> (forall s, g_initS R s = g_initS G s) ->
    (forall s t, g_safeE R s t = true <-> forall a, In a asm -> snd a = 0 -> fst a s t = true) ->
    (forall s t, g_safeS R s t = g_safeS G s t) -> g_liveA R = g_liveA G ->
    (forall p, In p (g_liveG R) -> exists goal, In goal (g_liveG G) /\ forall s t, disturbed asm s t \/ goal s t = true -> p s t = true) ->
    realizable R.
  Proof.
    intros B (f0 & W0) r1 r2 r3 r4 r5 r6 r7.
    destruct (chain_stable (list bool) (fun j l => Win (j * counted1) l)) with (l := allCodes N) (b := 0) as (j & _ & Hj & St).
    { intros j l. apply Win_desc. lia. }
    set (K := S j * counted1). assert (KB : K <= k). { unfold K, enough in *. etransitivity; [|exact B]. apply Nat.mul_le_mono_r. lia. }
    assert (W0' : forall x, mixedObjective G asm K (countedPlay G f0 x)).
    { intros x I. destruct (W0 x I) as (I' & S & Lv). assert (SE : forall p q, stepE asm K p q -> stepE asm k p q) by (intros p q [Z C]; split; [exact Z|lia]).
      split; [exact I'|]. split; [intros n A; apply S; auto|]. intros A As. apply Lv; auto. }
    assert (IN : forall l, length l = N -> In l (allCodes N)) by (intros l <-; apply allCodes_in).
    assert (stable : forall l, length l = N -> Win (K - counted1) l -> Win K l).
    { intros l El Wl. apply (St l (IN l El)). replace (K - counted1) with (j * counted1) in Wl by (unfold K; cbn [Nat.mul]; lia). exact Wl. }
    destruct (finite_choice (fun l f => Win K l -> winsBy K f (dec l, 0)) f0 (allCodes N)) as (F & FW).
    { intros l _. destruct (classic (Win K l)) as [(f & Wf)|X]; [exists f; auto|exists f0; intros Y; contradiction]. }
    exists (composed F f0). intros x. apply (composed_wins K ltac:(unfold K; cbn [Nat.mul]; lia) stable F (fun l El => FW l (IN l El)) f0 W0' R r1 r2 r3 r4 r5 r6 r7).
    apply dS. intros v _. now apply (start_eq F f0 R).
  Qed.
End PUMP.
