(** The rewrites of PatModel.v and the empty string: a pattern matches the empty string after them
    exactly if it did before, without the conditions under which they keep what is matched. *)
From Coq Require Import List NArith ZArith Bool Lia PeanoNat.
From Verif Require Import Base PatModel PatSpec RewriteProofs Thm_Rewrite BuildTree ReduceBuild.
Import ListNotations.
Open Scope nat_scope.

Lemma pow_empty (L : word -> Prop) n : L [] -> pow L n [].
Proof. intros H. induction n as [|n IH]; simpl; auto. exists [], []. auto. Qed.

(** hasZeroLengthMatch is right. *)
Theorem zero_length_exact A t : leaves_nonempty A -> bounds_ok t -> (hasZeroLengthMatch t = true <-> lang A t []).
Proof.
  intros NE. induction t as [k t IH|l IHl r IHr|l IHl r IHr|g t IH mn mx|a]; cbn [hasZeroLengthMatch lang bounds_ok]; intros HB.
  - split; [discriminate|tauto].
  - rewrite orb_true_iff, IHl, IHr by tauto. tauto.
  - rewrite andb_true_iff, IHl, IHr by tauto. split; [intros (H1 & H2); exists [], []; auto|].
    intros (u & v & E & H1 & H2). destruct u, v; try discriminate. auto.
  - rewrite orb_true_iff, N.eqb_eq, IH by tauto. unfold within. split.
    + intros [->|H]; [exists 0; simpl; split; auto; lia|]. exists (N.to_nat mn). split; [rewrite N2Nat.id; lia|apply pow_empty; auto].
    + intros ([|n] & (H1 & _) & H); [left; lia|]. right. simpl in H. destruct H as (u & v & E & H & _). destruct u; [auto|discriminate].
  - split; [discriminate|]. intros H. exfalso. eapply NE; eauto.
Qed.

Lemma only_zero_zero t : has_only_zero_length_match t = true -> hasZeroLengthMatch t = true.
Proof.
  induction t as [k t IH|l IHl r IHr|l IHl r IHr|g t IH mn mx|a]; simpl; intros H; auto.
  - rewrite IHl; auto.
  - apply andb_true_iff in H as (H1 & H2). rewrite IHl, IHr; auto.
  - apply orb_true_iff in H as [H|H]; [apply andb_true_iff in H as (-> & _); auto|]. rewrite IH, orb_true_r; auto.
Qed.

Lemma ra_zero t : hasZeroLengthMatch (fst (makeBinopsRightAssociative t)) = hasZeroLengthMatch t.
Proof.
  induction t as [k t IH|l IHl r IHr|l IHl r IHr|g t IH mn mx|a]; simpl; auto.
  - destruct (makeBinopsRightAssociative t); auto.
  - destruct (makeBinopsRightAssociative l) as [l' b1], (makeBinopsRightAssociative r) as [r' b2]; simpl in *. rewrite <- IHl, <- IHr. destruct l'; auto. simpl. rewrite orb_assoc. auto.
  - destruct (makeBinopsRightAssociative l) as [l' b1], (makeBinopsRightAssociative r) as [r' b2]; simpl in *. rewrite <- IHl, <- IHr. destruct l'; auto. simpl. rewrite andb_assoc. auto.
  - destruct (makeBinopsRightAssociative t); simpl in *. rewrite IH. auto.
Qed.

Lemma combine_zero t : bounds_ok t -> (total t < UNBOUNDED)%N -> hasZeroLengthMatch (fst (combineConsecutiveRepetitions t)) = hasZeroLengthMatch t.
Proof.
  intros HB HT. destruct (combine_facts t HB HT) as (C1 & _ & _ & _ & _ & _ & _ & S).
  assert (NE : leaves_nonempty (fun _ _ => False)) by (intros a H; auto).
  pose proof (zero_length_exact (fun _ _ => False) t NE HB) as Z. pose proof (zero_length_exact (fun _ _ => False) _ NE C1) as Z'. specialize (S (fun _ _ => False) []).
  apply eq_true_iff_eq. tauto.
Qed.

(** the two rewrites at the end of a pattern *)
Lemma empty_pass t : bounds_ok t -> let t' := fst (reduceTrailingNongreedyThenEmpty t) in bounds_ok t' /\ (total t' <= total t)%N /\ hasZeroLengthMatch t' = hasZeroLengthMatch t.
Proof.
  induction t as [k t IH|l IHl r IHr|l IHl r IHr|g t IH mn mx|a]; intros HB; cbn zeta in *.
  - simpl in *. destruct (reduceTrailingNongreedyThenEmpty t); simpl in *; tauto.
  - simpl in *. destruct (reduceTrailingNongreedyThenEmpty l), (reduceTrailingNongreedyThenEmpty r); simpl in *.
    destruct IHl as (? & ? & Z1); try tauto. destruct IHr as (? & ? & Z2); try tauto. rewrite Z1, Z2. repeat split; try tauto; lia.
  - cbn [reduceTrailingNongreedyThenEmpty]. destruct (reduceTrailingNongreedyThenEmpty r) as [r' b2]. simpl in IHr.
    simpl in HB. destruct IHr as (R1 & R2 & R3); try tauto.
    assert (D : forall p : pnode * bool, bounds_ok (fst p) /\ (total (fst p) <= total l)%N /\ hasZeroLengthMatch (fst p) = hasZeroLengthMatch l ->
      let t' := fst (let '(l', b1) := p in (PCat l' r', b1 || b2)) in
      bounds_ok t' /\ (total t' <= total (PCat l r))%N /\ hasZeroLengthMatch t' = hasZeroLengthMatch (PCat l r)).
    { intros [l' b1] (A1 & A2 & A3). simpl in *. rewrite A3, R3. repeat split; try tauto; lia. }
    apply D. destruct (hasZeroLengthMatch r); [|simpl; repeat split; try tauto; lia].
    destruct l as [| | |gl tl a b|]; try (apply IHl; tauto). destruct gl; [apply IHl; tauto|].
    simpl in *. pose proof (weight_le a b). rewrite (weight_ge a a) by lia.
    repeat split; try tauto; unfold UNBOUNDED, two32 in *; lia.
  - simpl in HB. cbn [reduceTrailingNongreedyThenEmpty]. destruct IH as (I1 & I2 & I3); [tauto|].
    destruct (reduceTrailingNongreedyThenEmpty t) as [t' b]. simpl in I1, I2, I3. destruct g; simpl; rewrite I3; [repeat split; try tauto; lia|].
    pose proof (weight_le mn mx). rewrite (weight_ge mn mn) by lia. repeat split; try tauto; unfold UNBOUNDED, two32 in *; lia.
  - simpl; repeat split; auto; lia.
Qed.

Definition body (t : pnode) : pnode := match t with PRep _ t _ _ => t | _ => t end.
Definition greedy_kept (t : pnode) : Prop := bounds_ok t -> (total t < UNBOUNDED)%N -> let t' := fst (reduceTrailingNongreedyThenGreedy t) in bounds_ok t' /\ (total t' <= total t)%N /\ hasZeroLengthMatch t' = hasZeroLengthMatch t.

Lemma greedy_pass t : greedy_kept t /\ greedy_kept (body t).
Proof.
  induction t as [k t (IH & _)|l (IHl & IHb) r (IHr & _)|l (IHl & IHb) r (IHr & _)|g t (IH & _) mn mx|a];
    match goal with |- greedy_kept (PRep _ _ _ _) /\ _ => split; [|exact IH] | |- _ => match goal with |- ?P /\ _ => assert (X : P); [|split; exact X] end end;
    intros HB HT; cbn zeta in *; unfold greedy_kept in IH || unfold greedy_kept in IHl, IHr, IHb || idtac; cbn zeta in *.
  - simpl in *. specialize (IH HB HT). destruct (reduceTrailingNongreedyThenGreedy t) as [t' b]. simpl in *. tauto.
  - simpl in *. destruct (reduceTrailingNongreedyThenGreedy l) as [l' b1], (reduceTrailingNongreedyThenGreedy r) as [r' b2]; simpl in *.
    destruct IHl as (A1 & A2 & A3); try tauto; try lia. destruct IHr as (B1 & B2 & B3); try tauto; try lia. rewrite A3, B3. repeat split; try tauto; lia.
  - cbn [reduceTrailingNongreedyThenGreedy].
    destruct (reduceTrailingNongreedyThenGreedy r) as [r' b2].
    simpl in HB, HT. destruct IHr as (B1 & B2 & B3); try tauto; try lia. simpl in B1, B2, B3.
    assert (Base : bounds_ok (PCat l r') /\ (total (PCat l r') <= total (PCat l r))%N /\ hasZeroLengthMatch (PCat l r') = hasZeroLengthMatch (PCat l r)).
    { simpl. rewrite B3. repeat split; try tauto; lia. }
    destruct l as [| | |gl t a b|]; try exact Base. destruct gl; [exact Base|].
    simpl in HB, HT. destruct HB as ((Hab & Ha & Hb & HBt) & HBr).
    assert (T1 : bounds_ok (fst (reduceTrailingNongreedyThenGreedy t)) /\ (total (fst (reduceTrailingNongreedyThenGreedy t)) <= total t)%N /\ hasZeroLengthMatch (fst (reduceTrailingNongreedyThenGreedy t)) = hasZeroLengthMatch t).
    { apply IHb; simpl; auto; lia. }
    destruct T1 as (T1 & T2 & T3). clear IHl IHb. set (t1 := fst (reduceTrailingNongreedyThenGreedy t)) in *.
    pose proof (weight_le a b Hab) as Wab. pose proof (total_pos t) as Tp.
    assert (One : node_eqb t r' = true -> let q := PRep true t1 (add_min a 1) ((a + 1) mod two32) in bounds_ok q /\ (total q <= total (PCat (PRep false t a b) r))%N /\ hasZeroLengthMatch q = hasZeroLengthMatch (PCat (PRep false t a b) r)).
    { intros E. apply node_eqb_eq in E. subst r'. unfold add_min. assert (S1 : ((a + 1) mod two32 = a + 1)%N) by (apply N.mod_small; unfold two32, UNBOUNDED in *; lia). cbn zeta. rewrite S1.
      split; [|split].
      - simpl. unfold UNBOUNDED, two32 in *. repeat split; try tauto; try lia.
      - simpl. rewrite (weight_ge (a + 1) (a + 1)) by lia. lia.
      - simpl. rewrite T3, B3. destruct (N.eqb_spec (a + 1) 0); [lia|]. simpl. destruct (hasZeroLengthMatch r); [rewrite orb_true_r|rewrite andb_false_r]; auto. }
    assert (Rep : forall c d, r' = PRep true t c d ->
       let q := PRep true t1 (add_min a c) (if (d =? UNBOUNDED)%N then UNBOUNDED else ((a + d) mod two32)%N) in
       bounds_ok q /\ (total q <= total (PCat (PRep false t a b) r))%N /\ hasZeroLengthMatch q = hasZeroLengthMatch (PCat (PRep false t a b) r)).
    { intros c d ->. cbn zeta. simpl in B1, B2. destruct B1 as (Hcd & Hc & Hd & _).
      pose proof (weight_le c d Hcd) as Wcd.
      assert (S1 : add_min a c = (a + c)%N) by (unfold add_min, two32; apply N.mod_small; unfold UNBOUNDED in *; lia).
      rewrite S1.
      assert (S2 : (if (d =? UNBOUNDED)%N then UNBOUNDED else (a + d) mod two32)%N = (if (d =? UNBOUNDED)%N then UNBOUNDED else a + d)%N).
      { destruct (d =? UNBOUNDED)%N eqn:E; auto. apply N.mod_small. unfold two32.
        assert (weight c d = d) by (apply weight_ge; lia). unfold UNBOUNDED in *; lia. }
      rewrite S2. split; [|split].
      - simpl. destruct (d =? UNBOUNDED)%N eqn:E.
        + unfold UNBOUNDED, two32 in *. repeat split; try tauto; lia.
        + assert (weight c d = d) by (apply weight_ge; lia). unfold UNBOUNDED, two32 in *. repeat split; try tauto; lia.
      - simpl. destruct (d =? UNBOUNDED)%N eqn:E.
        + unfold weight at 1. rewrite N.eqb_refl. lia.
        + assert (weight c d = d) by (apply weight_ge; lia). unfold weight at 1.
          destruct (a + d =? UNBOUNDED)%N; lia.
      - simpl. rewrite T3, <- B3. simpl. destruct (hasZeroLengthMatch t); [rewrite !orb_true_r; auto|]. rewrite !orb_false_r.
        destruct (N.eqb_spec a 0), (N.eqb_spec c 0), (N.eqb_spec (a + c) 0); auto; lia. }
    destruct r' as [| | |[] t2 c d|]; try (destruct (node_eqb t _) eqn:E; [apply One; auto|exact Base]).
    destruct (node_eqb t t2) eqn:E; [apply node_eqb_eq in E; subst t2; apply Rep; auto|]. destruct (node_eqb t (PRep true t2 c d)) eqn:E2; [apply One; auto|exact Base].
  - simpl in *. destruct IH as (I1 & I2 & I3); [tauto|lia|]. destruct (reduceTrailingNongreedyThenGreedy t) as [t' b]. simpl in *. rewrite I3. repeat split; try tauto; lia.
  - simpl; repeat split; auto; lia.
Qed.

Lemma subtrees_zero t : hasZeroLengthMatch (reduceEmptySubtrees t) = hasZeroLengthMatch t.
Proof.
  induction t as [k t IH|l IHl r IHr|l IHl r IHr|g t IH mn mx|a]; cbn [reduceEmptySubtrees]; destruct (has_only_zero_length_match _) eqn:Z; try (apply only_zero_zero in Z; rewrite Z; reflexivity); auto.
  - destruct (has_only_zero_length_match (reduceEmptySubtrees r)) eqn:Y; simpl; [|rewrite IHl, IHr; auto]. apply only_zero_zero in Y. rewrite IHr in Y. rewrite Y, orb_true_r. auto.
  - destruct (has_only_zero_length_match (reduceEmptySubtrees l)) eqn:X; [apply only_zero_zero in X; rewrite IHl in X; simpl; rewrite X; auto|].
    destruct (has_only_zero_length_match (reduceEmptySubtrees r)) eqn:Y; [apply only_zero_zero in Y; rewrite IHr in Y; simpl; rewrite Y, andb_true_r; auto|]. simpl. rewrite IHl, IHr. auto.
  - simpl. rewrite IH. auto.
Qed.

Lemma useless_zero t : bounds_ok t -> hasZeroLengthMatch (reduceUselessRepetitions t) = hasZeroLengthMatch t.
Proof.
  induction t as [k t IH|l IHl r IHr|l IHl r IHr|g t IH mn mx|a]; simpl; intros HB; auto.
  - rewrite IHl, IHr by tauto. auto.
  - rewrite IHl, IHr by tauto. auto.
  - destruct (N.eqb_spec mn 1) as [->|]; simpl.
    + destruct (N.eqb_spec mx 1); simpl; [apply IH; tauto|]. destruct (_ && _); simpl; apply IH; tauto.
    + destruct (_ && _); simpl; rewrite IH by tauto; auto.
Qed.

(** All together: what is handed to the automaton builder can be built from, its leaves are leaves of
    the pattern, and it matches the empty string exactly if the pattern does.  If nothing is handed
    over, the pattern matches the empty string. *)
Theorem reduce_keeps_empty text t o : bounds_ok t -> (total t < UNBOUNDED)%N -> (containsPossibleCountedRepetition text = false -> no_zero t) ->
  reduce text (Some t) = Ok o ->
  match o with
  | Some t' => has_look t' = false /\ bounds_ok t' /\ no_zero t' /\ (forall a, In a (atoms t') -> In a (atoms t)) /\ hasZeroLengthMatch t' = hasZeroLengthMatch t
  | None => hasZeroLengthMatch t = true
  end.
Proof.
  intros TB TT HZ R. assert (LK : has_look t = false). { destruct (has_look t) eqn:HK; auto. apply (lookaround_refused text) in HK. congruence. }
  assert (HL : leafy (fun a => In a (atoms t)) t) by (apply leafy_iff; auto). revert R. unfold reduce. set (Q := fun a => In a (atoms t)) in *.
  destruct (ra_facts t) as (R1 & R2 & _). pose proof (leafy_ra Q t HL) as L1. pose proof (ra_unchanged t) as U1. pose proof (ra_zero t) as Z1.
  destruct (makeBinopsRightAssociative t) as [t1 b1]. simpl in R1, R2, L1, U1, Z1.
  destruct (has_look t1); [discriminate|]. specialize (R1 TB). rewrite <- R2 in TT.
  destruct (combine_facts t1 R1 TT) as (C1 & C2 & _). pose proof (leafy_combine Q t1 L1) as L2. pose proof (combine_unchanged t1) as U2. pose proof (combine_zero t1 R1 TT) as Z2.
  destruct (combineConsecutiveRepetitions t1) as [t2 b2]. simpl in C1, C2, L2, U2, Z2.
  assert (T4 : exists t4 b4, (if containsPossibleNongreedy text then
            let '(t3, b3) := reduceTrailingNongreedyThenEmpty t2 in
            let '(t4, b4) := reduceTrailingNongreedyThenGreedy t3 in (t4, b3 || b4)
          else (t2, false)) = (t4, b4) /\ bounds_ok t4 /\ leafy Q t4 /\ (b4 = false -> t4 = t2) /\ hasZeroLengthMatch t4 = hasZeroLengthMatch t2).
  { destruct (containsPossibleNongreedy text); [|exists t2, false; auto].
    destruct (empty_pass t2 C1) as (E1 & E2 & E3). pose proof (leafy_empty Q t2 L2) as L3. pose proof (empty_unchanged t2) as U3.
    destruct (reduceTrailingNongreedyThenEmpty t2) as [t3 b3]. simpl in E1, E2, E3, L3, U3.
    assert (T3 : (total t3 < UNBOUNDED)%N) by lia.
    destruct (proj1 (greedy_pass t3) E1 T3) as (G1 & _ & G3). pose proof (leafy_greedy Q t3 L3) as L4. pose proof (greedy_unchanged t3) as U4.
    destruct (reduceTrailingNongreedyThenGreedy t3) as [t4 b4]. simpl in *.
    exists t4, (b3 || b4). split; auto. split; auto. split; auto. split; [|congruence]. intros H. apply orb_false_elim in H as (H1 & H2). rewrite U4, U3; auto. }
  destruct T4 as (t4 & b4 & -> & B4 & L4 & U4 & Z4). assert (ZT : hasZeroLengthMatch t4 = hasZeroLengthMatch t) by congruence.
  destruct (b1 || b2 || b4 || containsPossibleCountedRepetition text) eqn:E.
  - simpl. destruct (has_only_zero_length_match t4) eqn:Z; intros [= <-]; [rewrite <- ZT; apply only_zero_zero; auto|].
    pose proof (bounds_subtrees t4 B4) as B5. assert (L5 : leafy Q (reduceUselessRepetitions (reduceEmptySubtrees t4))) by (apply leafy_useless, leafy_subtrees; auto).
    apply leafy_iff in L5 as (K5 & A5). split; auto. split; [apply bounds_useless; auto|]. split; [apply zero_useless, no_zero_repetition_left; auto|]. split; auto.
    rewrite useless_zero, subtrees_zero; auto.
  - intros [= <-]. apply leafy_iff in L4 as (K4 & A4). split; auto. split; auto. split; [|auto]. apply orb_false_elim in E as (E & E4). apply orb_false_elim in E as (E & E3). apply orb_false_elim in E as (E1 & E2).
    rewrite U4, U2, U1; auto.
Qed.
