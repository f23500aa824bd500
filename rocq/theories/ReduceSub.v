(** The rewrites of PatModel.v add no texts to a pattern. *)
From Coq Require Import List NArith ZArith Bool Lia PeanoNat.
From Verif Require Import Base PatModel PatSpec RewriteProofs Thm_Rewrite BuildTree ReduceBuild ReduceEmpty.
Import ListNotations.
Open Scope nat_scope.

Section Sub.
Variable A : atom -> word -> Prop.
Notation sub t' t := (forall w, lang A t' w -> lang A t w).

Lemma pow_mono (L L' : word -> Prop) n : (forall w, L w -> L' w) -> forall w, pow L n w -> pow L' n w.
Proof. intros H. induction n as [|n IH]; simpl; auto. intros w (u & v & E & Hu & Hv). exists u, v. auto. Qed.

Lemma sub_alt l l' r r' : sub l' l -> sub r' r -> sub (PAlt l' r') (PAlt l r).
Proof. simpl. intros H1 H2 w [H|H]; auto. Qed.
Lemma sub_cat l l' r r' : sub l' l -> sub r' r -> sub (PCat l' r') (PCat l r).
Proof. simpl. intros H1 H2 w (u & v & E & Hu & Hv). exists u, v. auto. Qed.
Lemma sub_rep g g' t t' mn mx : sub t' t -> sub (PRep g' t' mn mx) (PRep g t mn mx).
Proof. simpl. intros H w (n & W & P). exists n. split; auto. eapply pow_mono; eauto. Qed.
(** only the least number of repetitions *)
Lemma sub_least g g' t t' mn mx : (mn <= mx)%N -> (mn < UNBOUNDED)%N -> sub t' t -> sub (PRep g' t' mn mn) (PRep g t mn mx).
Proof.
  simpl. intros B U H w (n & (W1 & W2) & P). exists n. split; [|eapply pow_mono; eauto]. split; auto. destruct W2 as [W2|W2]; [lia|]. right. lia.
Qed.

Lemma only_zero_lang t : bounds_ok t -> has_only_zero_length_match t = true -> lang A t [].
Proof.
  induction t as [k t IH|l IHl r IHr|l IHl r IHr|g t IH mn mx|a]; simpl; intros HB H; try discriminate.
  - left. apply IHl; tauto.
  - apply andb_true_iff in H as (H1 & H2). exists [], []. repeat split; [apply IHl|apply IHr]; tauto.
  - unfold within. apply orb_true_iff in H as [H|H].
    + apply andb_true_iff in H as (H1 & H2). apply N.eqb_eq in H1, H2. exists 0. simpl. split; auto. lia.
    + exists (N.to_nat mn). rewrite N2Nat.id. split; [lia|apply pow_empty, IH; tauto].
Qed.

Lemma sub_dummy t : bounds_ok t -> has_only_zero_length_match t = true -> sub dummy t.
Proof. intros HB H w (n & (_ & W) & P). destruct n; [simpl in P; subst; apply only_zero_lang; auto|]. unfold UNBOUNDED in W. lia. Qed.

Lemma ra_sub t : sub (fst (makeBinopsRightAssociative t)) t.
Proof.
  induction t as [k t IH|l IHl r IHr|l IHl r IHr|g t IH mn mx|a]; cbn [makeBinopsRightAssociative].
  - destruct (makeBinopsRightAssociative t); simpl; tauto.
  - destruct (makeBinopsRightAssociative l) as [l' b1], (makeBinopsRightAssociative r) as [r' b2]. cbn [fst] in *.
    assert (S : sub (PAlt l' r') (PAlt l r)) by (apply sub_alt; auto). destruct l'; auto. cbn [fst]. intros w H. apply S. simpl in *. tauto.
  - destruct (makeBinopsRightAssociative l) as [l' b1], (makeBinopsRightAssociative r) as [r' b2]. cbn [fst] in *.
    assert (S : sub (PCat l' r') (PCat l r)) by (apply sub_cat; auto). destruct l'; auto. cbn [fst]. intros w H. apply S. simpl in *.
    destruct H as (u & v & -> & Hu & x & y & -> & Hx & Hy). exists (u ++ x), y. rewrite app_assoc. split; auto. split; auto. exists u, x. auto.
  - destruct (makeBinopsRightAssociative t) as [t' b]. cbn [fst] in *. apply sub_rep; auto.
  - auto.
Qed.

Lemma empty_sub t : bounds_ok t -> sub (fst (reduceTrailingNongreedyThenEmpty t)) t.
Proof.
  induction t as [k t IH|l IHl r IHr|l IHl r IHr|g t IH mn mx|a]; intros HB; cbn [reduceTrailingNongreedyThenEmpty bounds_ok] in *.
  - destruct (reduceTrailingNongreedyThenEmpty t); simpl; tauto.
  - destruct (reduceTrailingNongreedyThenEmpty l) as [l' b1], (reduceTrailingNongreedyThenEmpty r) as [r' b2]. cbn [fst] in *. apply sub_alt; [apply IHl|apply IHr]; tauto.
  - destruct (reduceTrailingNongreedyThenEmpty r) as [r' b2]. cbn [fst] in IHr. 
    assert (D : forall p : pnode * bool, sub (fst p) l -> sub (fst (let '(l', b1) := p in (PCat l' r', b1 || b2))) (PCat l r)).
    { intros [l' b1] H. cbn [fst] in *. apply sub_cat; auto. apply IHr. tauto. }
    apply D. destruct (hasZeroLengthMatch r); [|auto]. destruct l as [| | |[] tl a b|]; try (apply IHl; tauto). cbn [fst]. simpl in HB. apply sub_least; auto; tauto.
  - destruct (reduceTrailingNongreedyThenEmpty t) as [t' b]. cbn [fst] in IH. destruct g; cbn [fst]; [apply sub_rep|apply sub_least]; try tauto; apply IH; tauto.
  - auto.
Qed.

Lemma one_more g t t1 a b : (a <= b)%N -> (a + 1 < UNBOUNDED)%N -> sub t1 t -> sub (PRep true t1 (a + 1) (a + 1)) (PCat (PRep g t a b) t).
Proof.
  intros HB HU S w (n & (W1 & W2) & P). assert (En : n = N.to_nat a + 1) by lia. subst n. apply pow_split in P as (u & v & -> & P1 & P2). simpl in P2. destruct P2 as (x & y & -> & P2 & ->).
  rewrite app_nil_r. exists u, x. split; auto. split; auto. exists (N.to_nat a). split; [unfold within; lia|eapply pow_mono; eauto].
Qed.

Definition greedy_small (t : pnode) : Prop := bounds_ok t -> (total t < UNBOUNDED)%N -> sub (fst (reduceTrailingNongreedyThenGreedy t)) t.

Lemma greedy_sub t : greedy_small t /\ greedy_small (body t).
Proof.
  induction t as [k t (IH & _)|l (IHl & IHb) r (IHr & _)|l (IHl & IHb) r (IHr & _)|g t (IH & _) mn mx|a];
    match goal with |- greedy_small (PRep _ _ _ _) /\ _ => split; [|exact IH] | |- _ => match goal with |- ?P /\ _ => assert (X : P); [|split; exact X] end end;
    intros HB HT; cbn [reduceTrailingNongreedyThenGreedy bounds_ok total] in *.
  - destruct (reduceTrailingNongreedyThenGreedy t); simpl; tauto.
  - unfold greedy_small in IHl, IHr. destruct (reduceTrailingNongreedyThenGreedy l) as [l' b1], (reduceTrailingNongreedyThenGreedy r) as [r' b2]. cbn [fst] in *. apply sub_alt; [apply IHl|apply IHr]; try tauto; lia.
  - assert (IR : sub (fst (reduceTrailingNongreedyThenGreedy r)) r) by (apply IHr; try tauto; lia).
    destruct (proj1 (greedy_pass r)) as (B1 & B2 & _); try tauto; try lia.
    destruct (reduceTrailingNongreedyThenGreedy r) as [r' b2]. cbn [fst] in IR, B1, B2.
    assert (Base : sub (PCat l r') (PCat l r)) by (apply sub_cat; auto).
    destruct l as [| | |gl t a b|]; try exact Base. destruct gl; [exact Base|]. cbn [bounds_ok total] in HB, HT. destruct HB as ((Hab & Ha & Hb & HBt) & HBr).
    pose proof (weight_le a b Hab) as Wab. pose proof (total_pos t) as Tp. pose proof (total_pos r) as Tr.
    assert (T1 : sub (fst (reduceTrailingNongreedyThenGreedy t)) t) by (apply IHb; simpl; auto; lia). set (t1 := fst (reduceTrailingNongreedyThenGreedy t)) in *.
    assert (One : node_eqb t r' = true -> sub (PRep true t1 (add_min a 1) ((a + 1) mod two32)) (PCat (PRep false t a b) r)).
    { intros E. apply node_eqb_eq in E. subst r'. unfold add_min. assert (S1 : ((a + 1) mod two32 = a + 1)%N) by (apply N.mod_small; unfold two32, UNBOUNDED in *; lia). rewrite S1.
      intros w H. apply Base. revert H. apply one_more; auto. unfold UNBOUNDED in *. lia. }
    assert (Rep : forall c d, r' = PRep true t c d -> sub (PRep true t1 (add_min a c) (if (d =? UNBOUNDED)%N then UNBOUNDED else ((a + d) mod two32)%N)) (PCat (PRep false t a b) r)).
    { intros c d ->. simpl in B1, B2. destruct B1 as (Hcd & Hc & Hd & _). pose proof (weight_le c d Hcd) as Wcd.
      assert (S1 : add_min a c = (a + c)%N) by (unfold add_min, two32; apply N.mod_small; unfold UNBOUNDED in *; lia). rewrite S1.
      intros w (n & (W1 & W2) & P). apply Base. replace n with (N.to_nat a + (n - N.to_nat a)) in P by lia. apply pow_split in P as (u & v & -> & P1 & P2).
      exists u, v. split; auto. split; [exists (N.to_nat a); split; [unfold within; lia|eapply pow_mono; eauto]|]. exists (n - N.to_nat a). split; [|eapply pow_mono; eauto].
      split; [lia|]. destruct (N.eqb_spec d UNBOUNDED) as [E|E]; [auto|]. assert (weight c d = d) by (apply weight_ge; lia). rewrite N.mod_small in W2 by (unfold two32, UNBOUNDED in *; lia).
      right. destruct W2 as [W2|W2]; [|lia]. unfold UNBOUNDED in *. lia. }
    destruct r' as [| | |[] t2 c d|]; try (destruct (node_eqb t _) eqn:E; [apply One; auto|exact Base]).
    destruct (node_eqb t t2) eqn:E; [apply node_eqb_eq in E; subst t2; apply Rep; auto|]. destruct (node_eqb t (PRep true t2 c d)) eqn:E2; [apply One; auto|exact Base].
  - unfold greedy_small in IH. destruct (reduceTrailingNongreedyThenGreedy t) as [t' b]. cbn [fst] in *. apply sub_rep, IH; [tauto|lia].
  - auto.
Qed.

Lemma subtrees_sub t : bounds_ok t -> sub (reduceEmptySubtrees t) t.
Proof.
  induction t as [k t IH|l IHl r IHr|l IHl r IHr|g t IH mn mx|a]; intros HB; cbn [reduceEmptySubtrees]; destruct (has_only_zero_length_match _) eqn:Z; try (apply sub_dummy; auto; fail); auto.
  - simpl in HB. assert (SL : sub (reduceEmptySubtrees l) l) by (apply IHl; tauto). assert (SR : sub (reduceEmptySubtrees r) r) by (apply IHr; tauto).
    destruct (has_only_zero_length_match (reduceEmptySubtrees r)) eqn:Y; [|apply sub_alt; auto]. apply only_zero_lang in Y; [|apply bounds_subtrees; tauto].
    intros w ([|[|n]] & (_ & W) & P); simpl in P.
    + subst. right. auto.
    + destruct P as (u & v & -> & P & ->). rewrite app_nil_r. left. auto.
    + unfold UNBOUNDED in W. lia.
  - simpl in HB. assert (SL : sub (reduceEmptySubtrees l) l) by (apply IHl; tauto). assert (SR : sub (reduceEmptySubtrees r) r) by (apply IHr; tauto).
    destruct (has_only_zero_length_match (reduceEmptySubtrees l)) eqn:X.
    { apply only_zero_lang in X; [|apply bounds_subtrees; tauto]. intros w H. exists [], w. auto. }
    destruct (has_only_zero_length_match (reduceEmptySubtrees r)) eqn:Y; [|apply sub_cat; auto].
    apply only_zero_lang in Y; [|apply bounds_subtrees; tauto]. intros w H. exists w, []. rewrite app_nil_r. auto.
  - apply sub_rep, IH. simpl in HB. tauto.
Qed.

Lemma useless_sub t : bounds_ok t -> sub (reduceUselessRepetitions t) t.
Proof.
  induction t as [k t IH|l IHl r IHr|l IHl r IHr|g t IH mn mx|a]; intros HB; cbn [reduceUselessRepetitions bounds_ok] in *; auto.
  - apply sub_alt; tauto.
  - apply sub_cat; tauto.
  - assert (S : sub (reduceUselessRepetitions t) t) by (apply IH; tauto). destruct ((mn =? 1)%N && (mx =? 1)%N) eqn:E.
    + apply andb_true_iff in E as (E1 & E2). apply N.eqb_eq in E1, E2. subst. intros w H. exists 1. split; [unfold within; simpl; lia|]. exists w, []. rewrite app_nil_r. simpl. auto.
    + clear E. destruct (negb g && (mn =? mx)%N); apply sub_rep; auto.
Qed.

(** What is handed to the automaton builder matches only texts of the pattern. *)
Theorem reduce_adds_nothing text t t' : bounds_ok t -> (total t < UNBOUNDED)%N -> reduce text (Some t) = Ok (Some t') -> sub t' t.
Proof.
  intros TB TT. unfold reduce. destruct (ra_facts t) as (R1 & R2 & _). pose proof (ra_sub t) as S1.
  destruct (makeBinopsRightAssociative t) as [t1 b1]. simpl in R1, R2, S1. destruct (has_look t1); [discriminate|]. specialize (R1 TB). rewrite <- R2 in TT.
  destruct (combine_facts t1 R1 TT) as (C1 & C2 & _ & _ & _ & _ & _ & S2).
  destruct (combineConsecutiveRepetitions t1) as [t2 b2]. simpl in C1, C2, S2. specialize (S2 A).
  assert (T4 : exists t4 b4, (if containsPossibleNongreedy text then
            let '(t3, b3) := reduceTrailingNongreedyThenEmpty t2 in
            let '(t4, b4) := reduceTrailingNongreedyThenGreedy t3 in (t4, b3 || b4)
          else (t2, false)) = (t4, b4) /\ bounds_ok t4 /\ sub t4 t2).
  { destruct (containsPossibleNongreedy text); [|exists t2, false; auto].
    destruct (empty_pass t2 C1) as (E1 & E2 & _). pose proof (empty_sub t2 C1) as S3. destruct (reduceTrailingNongreedyThenEmpty t2) as [t3 b3]. simpl in E1, E2, S3.
    assert (T3 : (total t3 < UNBOUNDED)%N) by lia.
    destruct (proj1 (greedy_pass t3) E1 T3) as (G1 & _). pose proof (proj1 (greedy_sub t3) E1 T3) as S4. destruct (reduceTrailingNongreedyThenGreedy t3) as [t4 b4]. simpl in G1, S4.
    exists t4, (b3 || b4). split; auto. }
  destruct T4 as (t4 & b4 & -> & B4 & S4). assert (ST : sub t4 t) by (intros w H; apply S1, S2, S4; auto).
  destruct (b1 || b2 || b4 || containsPossibleCountedRepetition text); [|intros [= <-]; auto].
  simpl. destruct (has_only_zero_length_match t4); intros [= <-]. intros w H. apply ST, subtrees_sub, useless_sub; auto. apply bounds_subtrees; auto.
Qed.
End Sub.
