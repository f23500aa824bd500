(** What the rewrites of PatModel.v hand to the automaton builder. *)
From Coq Require Import List NArith ZArith Bool Lia PeanoNat.
From Verif Require Import Base PatModel PatSpec RewriteProofs Thm_Rewrite BuildTree.
Import ListNotations.
Open Scope nat_scope.

(** No look-around node, and [Q] for each leaf *)
Fixpoint leafy (Q : atom -> Prop) (t : pnode) : Prop :=
  match t with
  | PLook _ _ => False
  | PAlt l r | PCat l r => leafy Q l /\ leafy Q r
  | PRep _ t _ _ => leafy Q t
  | PAtom a => Q a
  end.

Lemma leafy_iff Q t : leafy Q t <-> has_look t = false /\ forall a, In a (atoms t) -> Q a.
Proof.
  induction t as [k t IH|l IHl r IHr|l IHl r IHr|g t IH mn mx|a]; cbn [leafy has_look atoms].
  - split; [tauto|intros ([=] & _)].
  - rewrite IHl, IHr, orb_false_iff. split; [|intros (? & H); repeat split; try tauto; intros; apply H, in_or_app; auto].
    intros ((? & H1) & ? & H2). split; auto. intros a Ha. apply in_app_or in Ha as [Ha|Ha]; auto.
  - rewrite IHl, IHr, orb_false_iff. split; [|intros (? & H); repeat split; try tauto; intros; apply H, in_or_app; auto].
    intros ((? & H1) & ? & H2). split; auto. intros a Ha. apply in_app_or in Ha as [Ha|Ha]; auto.
  - exact IH.
  - split; [intros H; split; auto; intros b [<-|[]]; auto|intros (_ & H); apply H; left; auto].
Qed.

Section Leafy.
Variable Q : atom -> Prop.

Lemma leafy_ra t : leafy Q t -> leafy Q (fst (makeBinopsRightAssociative t)).
Proof.
  induction t as [k t IH|l IHl r IHr|l IHl r IHr|g t IH mn mx|a]; cbn [leafy makeBinopsRightAssociative]; auto; try tauto.
  - intros (Hl & Hr). specialize (IHl Hl). specialize (IHr Hr). destruct (makeBinopsRightAssociative l) as [l' b1], (makeBinopsRightAssociative r) as [r' b2].
    simpl in IHl, IHr. destruct l'; simpl in *; tauto.
  - intros (Hl & Hr). specialize (IHl Hl). specialize (IHr Hr). destruct (makeBinopsRightAssociative l) as [l' b1], (makeBinopsRightAssociative r) as [r' b2].
    simpl in IHl, IHr. destruct l'; simpl in *; tauto.
  - intros H. specialize (IH H). destruct (makeBinopsRightAssociative t). auto.
Qed.

Lemma leafy_join x y : leafy Q x -> leafy Q y -> leafy Q (join_rep x y).
Proof. destruct x, y; simpl; auto. Qed.

Lemma leafy_combine t : leafy Q t -> leafy Q (fst (combineConsecutiveRepetitions t)).
Proof.
  induction t as [k t IH|l IHl r IHr|l IHl r IHr|g t IH mn mx|a]; cbn [leafy combineConsecutiveRepetitions]; auto; try tauto.
  - intros (Hl & Hr). specialize (IHl Hl). specialize (IHr Hr). destruct (combineConsecutiveRepetitions l), (combineConsecutiveRepetitions r). simpl in *. tauto.
  - intros (Hl & Hr). specialize (IHl Hl). specialize (IHr Hr). destruct (combineConsecutiveRepetitions l) as [l' b1], (combineConsecutiveRepetitions r) as [r' b2].
    simpl in IHl, IHr. destruct (combinable l' r'); [apply leafy_join; auto|]. destruct r' as [| |rl rr| |]; simpl in *; try tauto.
    destruct (combinable l' rl); simpl; auto. split; [apply leafy_join|]; tauto.
  - intros H. specialize (IH H). destruct (combineConsecutiveRepetitions t). auto.
Qed.

Lemma leafy_empty t : leafy Q t -> leafy Q (fst (reduceTrailingNongreedyThenEmpty t)).
Proof.
  induction t as [k t IH|l IHl r IHr|l IHl r IHr|g t IH mn mx|a]; cbn [leafy reduceTrailingNongreedyThenEmpty]; auto; try tauto.
  - intros (Hl & Hr). specialize (IHl Hl). specialize (IHr Hr). destruct (reduceTrailingNongreedyThenEmpty l), (reduceTrailingNongreedyThenEmpty r). simpl in *. tauto.
  - intros (Hl & Hr). specialize (IHl Hl). specialize (IHr Hr).
    assert (G : leafy Q (fst (if hasZeroLengthMatch r then match l with PRep false t a _ => (PRep true t a a, true) | _ => reduceTrailingNongreedyThenEmpty l end else (l, false)))).
    { destruct (hasZeroLengthMatch r); auto. destruct l as [| | |[] ? ? ?|]; auto. }
    destruct (if hasZeroLengthMatch r then _ else _) as [l' b1]. destruct (reduceTrailingNongreedyThenEmpty r). simpl in *. tauto.
  - intros H. specialize (IH H). destruct g; destruct (reduceTrailingNongreedyThenEmpty t); auto.
Qed.

Lemma leafy_greedy t : leafy Q t -> leafy Q (fst (reduceTrailingNongreedyThenGreedy t)).
Proof.
  induction t as [k t IH|l IHl r IHr|l IHl r IHr|g t IH mn mx|a]; cbn [leafy reduceTrailingNongreedyThenGreedy]; auto; try tauto.
  - intros (Hl & Hr). specialize (IHl Hl). specialize (IHr Hr). destruct (reduceTrailingNongreedyThenGreedy l), (reduceTrailingNongreedyThenGreedy r). simpl in *. tauto.
  - intros (Hl & Hr). specialize (IHl Hl). specialize (IHr Hr). destruct (reduceTrailingNongreedyThenGreedy r) as [r' b2].
    destruct l as [| | |[] t a b|]; try (simpl in *; tauto).
    cbn [reduceTrailingNongreedyThenGreedy] in IHl. destruct (reduceTrailingNongreedyThenGreedy t) as [t' bt]. cbn [fst leafy] in *.
    destruct r' as [| | |[] ? ? ?|]; repeat match goal with |- context [if ?c then _ else _] => destruct c end; simpl in *; tauto.
  - intros H. specialize (IH H). destruct (reduceTrailingNongreedyThenGreedy t). auto.
Qed.

Lemma leafy_subtrees t : has_only_zero_length_match t = false -> leafy Q t -> leafy Q (reduceEmptySubtrees t).
Proof.
  assert (D : forall t, has_only_zero_length_match t = true -> reduceEmptySubtrees t = dummy).
  { intros t0 Ht. destruct t0; simpl in *; try rewrite Ht; auto; discriminate. }
  induction t as [k t IH|l IHl r IHr|l IHl r IHr|g t IH mn mx|a]; intros H HL; auto.
  - cbn [reduceEmptySubtrees]. rewrite H. simpl in H. destruct HL as (Hl & Hr). specialize (IHl H Hl).
    destruct (has_only_zero_length_match r) eqn:Er; [rewrite (D r) by auto; exact IHl|].
    rewrite (reduce_empty_nz r) by auto. split; auto.
  - cbn [reduceEmptySubtrees]. rewrite H. simpl in H. destruct HL as (Hl & Hr).
    destruct (has_only_zero_length_match l) eqn:El, (has_only_zero_length_match r) eqn:Er; try discriminate.
    + rewrite (D l) by auto. apply IHr; auto.
    + rewrite (reduce_empty_nz l), (D r) by auto. apply IHl; auto.
    + rewrite (reduce_empty_nz l), (reduce_empty_nz r) by auto. split; auto.
  - cbn [reduceEmptySubtrees]. rewrite H. simpl in *. apply orb_false_elim in H. destruct H as (H1 & H2). auto.
Qed.

Lemma leafy_useless t : leafy Q t -> leafy Q (reduceUselessRepetitions t).
Proof.
  induction t as [k t IH|l IHl r IHr|l IHl r IHr|g t IH mn mx|a]; cbn [leafy reduceUselessRepetitions]; try tauto.
  intros H. destruct (_ && _); auto. destruct (_ && _); simpl; auto.
Qed.
End Leafy.

Lemma bounds_subtrees t : bounds_ok t -> bounds_ok (reduceEmptySubtrees t).
Proof.
  assert (D : bounds_ok dummy) by (simpl; unfold UNBOUNDED, two32; lia).
  induction t as [k t IH|l IHl r IHr|l IHl r IHr|g t IH mn mx|a]; intros HB; cbn [reduceEmptySubtrees]; auto.
  - destruct (has_only_zero_length_match _); auto. simpl in HB. destruct (has_only_zero_length_match _); simpl; unfold UNBOUNDED, two32; repeat split; try tauto; lia.
  - destruct (has_only_zero_length_match _); auto. simpl in HB. destruct (has_only_zero_length_match _); [tauto|]. destruct (has_only_zero_length_match _); [tauto|]. simpl; tauto.
  - destruct (has_only_zero_length_match _); auto. simpl in *; tauto.
Qed.

Lemma bounds_useless t : bounds_ok t -> bounds_ok (reduceUselessRepetitions t).
Proof.
  induction t as [k t IH|l IHl r IHr|l IHl r IHr|g t IH mn mx|a]; intros HB; cbn [reduceUselessRepetitions]; auto; try (simpl in *; tauto).
  destruct (_ && _); [apply IH; simpl in HB; tauto|]. destruct (_ && _); simpl in *; tauto.
Qed.

Lemma zero_useless t : no_zero t -> no_zero (reduceUselessRepetitions t).
Proof.
  induction t as [k t IH|l IHl r IHr|l IHl r IHr|g t IH mn mx|a]; intros HB; cbn [reduceUselessRepetitions]; auto; try (simpl in *; tauto).
  destruct (_ && _); [apply IH; simpl in HB; tauto|]. destruct (_ && _); simpl in *; tauto.
Qed.

Lemma ra_unchanged t : snd (makeBinopsRightAssociative t) = false -> fst (makeBinopsRightAssociative t) = t.
Proof.
  induction t as [k t IH|l IHl r IHr|l IHl r IHr|g t IH mn mx|a]; cbn [makeBinopsRightAssociative]; auto.
  - destruct (makeBinopsRightAssociative t); simpl in *. intros; f_equal; auto.
  - destruct (makeBinopsRightAssociative l) as [l' b1], (makeBinopsRightAssociative r) as [r' b2]. simpl in *.
    destruct l'; try discriminate; simpl; intros H; apply orb_false_elim in H as (H1 & H2); rewrite (IHl H1), (IHr H2); auto.
  - destruct (makeBinopsRightAssociative l) as [l' b1], (makeBinopsRightAssociative r) as [r' b2]. simpl in *.
    destruct l'; try discriminate; simpl; intros H; apply orb_false_elim in H as (H1 & H2); rewrite (IHl H1), (IHr H2); auto.
  - destruct (makeBinopsRightAssociative t); simpl in *. intros; f_equal; auto.
Qed.

Lemma empty_unchanged t : snd (reduceTrailingNongreedyThenEmpty t) = false -> fst (reduceTrailingNongreedyThenEmpty t) = t.
Proof.
  induction t as [k t IH|l IHl r IHr|l IHl r IHr|g t IH mn mx|a]; cbn [reduceTrailingNongreedyThenEmpty]; auto.
  - destruct (reduceTrailingNongreedyThenEmpty t); simpl in *. intros; f_equal; auto.
  - destruct (reduceTrailingNongreedyThenEmpty l), (reduceTrailingNongreedyThenEmpty r). simpl in *. intros H; apply orb_false_elim in H as (H1 & H2); f_equal; auto.
  - assert (G : let p := (if hasZeroLengthMatch r then match l with PRep false t a _ => (PRep true t a a, true) | _ => reduceTrailingNongreedyThenEmpty l end else (l, false)) in
      snd p = false -> fst p = l).
    { cbv zeta. destruct (hasZeroLengthMatch r); auto. destruct l as [| | |[] ? ? ?|]; auto. discriminate. }
    cbv zeta in G. destruct (if hasZeroLengthMatch r then _ else _) as [l' b1]. destruct (reduceTrailingNongreedyThenEmpty r). simpl in *.
    intros H; apply orb_false_elim in H as (H1 & H2); f_equal; auto.
  - destruct g; destruct (reduceTrailingNongreedyThenEmpty t); simpl in *; [intros; f_equal; auto|discriminate].
Qed.

Lemma greedy_unchanged t : snd (reduceTrailingNongreedyThenGreedy t) = false -> fst (reduceTrailingNongreedyThenGreedy t) = t.
Proof.
  induction t as [k t IH|l IHl r IHr|l IHl r IHr|g t IH mn mx|a]; cbn [reduceTrailingNongreedyThenGreedy]; auto.
  - destruct (reduceTrailingNongreedyThenGreedy t); simpl in *. intros; f_equal; auto.
  - destruct (reduceTrailingNongreedyThenGreedy l), (reduceTrailingNongreedyThenGreedy r). simpl in *. intros H; apply orb_false_elim in H as (H1 & H2); f_equal; auto.
  - destruct (reduceTrailingNongreedyThenGreedy r) as [r' b2]. simpl in *.
    destruct l as [| | |[] t a b|]; try (simpl; intros H; rewrite IHr; auto; fail).
    destruct r' as [| | |[] ? ? ?|]; repeat match goal with |- context [if ?c then _ else _] => destruct c end; simpl; try discriminate; intros H; rewrite IHr; auto.
  - destruct (reduceTrailingNongreedyThenGreedy t); simpl in *. intros; f_equal; auto.
Qed.

(** If the text shows no '{' there is no counted repetition in the tree, in particular no {0}. *)
Theorem reduce_hands_over Q text t t' : tree_ok t -> leafy Q t ->
  (containsPossibleCountedRepetition text = false -> no_zero t) ->
  reduce text (Some t) = Ok (Some t') -> leafy Q t' /\ bounds_ok t' /\ no_zero t'.
Proof.
  intros [TB TT TC TL] HL HZ. unfold reduce.
  destruct (ra_facts t) as (R1 & R2 & _ & R4 & R5 & _ & _). pose proof (leafy_ra Q t HL) as L1. pose proof (ra_unchanged t) as U1.
  destruct (makeBinopsRightAssociative t) as [t1 b1]. simpl in R1, R2, R4, R5, L1, U1.
  destruct (has_look t1); [discriminate|].
  specialize (R1 TB). specialize (R4 TC). specialize (R5 TL). rewrite <- R2 in TT.
  destruct (combine_facts t1 R1 TT) as (C1 & C2 & _ & C4 & _ & C6 & _ & _). pose proof (leafy_combine Q t1 L1) as L2. pose proof (combine_unchanged t1) as U2.
  destruct (combineConsecutiveRepetitions t1) as [t2 b2]. simpl in C1, C2, C4, C6, L2, U2. specialize (C4 R4). specialize (C6 R5).
  assert (T4 : exists t4 b4, (if containsPossibleNongreedy text then
            let '(t3, b3) := reduceTrailingNongreedyThenEmpty t2 in
            let '(t4, b4) := reduceTrailingNongreedyThenGreedy t3 in (t4, b3 || b4)
          else (t2, false)) = (t4, b4) /\ bounds_ok t4 /\ leafy Q t4 /\ (b4 = false -> t4 = t2)).
  { destruct (containsPossibleNongreedy text); [|exists t2, false; auto].
    destruct (empty_facts t2 C1 C4) as (E1 & E2 & E3). pose proof (leafy_empty Q t2 L2) as L3. pose proof (empty_unchanged t2) as U3.
    destruct (reduceTrailingNongreedyThenEmpty t2) as [t3 b3]. simpl in E1, E2, E3, L3, U3.
    assert (T3 : (total t3 < UNBOUNDED)%N) by lia.
    destruct (greedy_facts (fun _ _ => []) t3 E1 E3 T3) as (G1 & _). pose proof (leafy_greedy Q t3 L3) as L4. pose proof (greedy_unchanged t3) as U4.
    destruct (reduceTrailingNongreedyThenGreedy t3) as [t4 b4]. simpl in *.
    exists t4, (b3 || b4). split; auto. split; auto. split; auto. intros H. apply orb_false_elim in H as (H1 & H2). rewrite U4, U3; auto. }
  destruct T4 as (t4 & b4 & -> & B4 & L4 & U4).
  destruct (b1 || b2 || b4 || containsPossibleCountedRepetition text) eqn:E.
  - simpl. destruct (has_only_zero_length_match t4) eqn:Z; intros [= <-]. 
    split; [apply leafy_useless, leafy_subtrees; auto|]. split; [apply bounds_useless, bounds_subtrees; auto|].
    apply zero_useless, no_zero_repetition_left; auto.
  - intros [= <-]. split; auto. split; auto. apply orb_false_elim in E as (E & E4). apply orb_false_elim in E as (E & E3). apply orb_false_elim in E as (E1 & E2).
    rewrite U4, U2, U1; auto.
Qed.

(** Only the leaves in the tree matter. *)
Lemma ways_ext am am' t : (forall a, In a (atoms t) -> forall w, am a w = am' a w) -> forall w, ways am t w = ways am' t w.
Proof.
  induction t as [k t IH|l IHl r IHr|l IHl r IHr|g t IH mn mx|a]; intros H w; cbn [atoms] in H.
  - reflexivity.
  - cbn [ways]. rewrite IHl, IHr by (intros; apply H, in_or_app; auto). auto.
  - cbn [ways]. rewrite IHl by (intros; apply H, in_or_app; auto). apply fm_ext. intros. apply IHr. intros; apply H, in_or_app; auto.
  - cbn [ways].
    assert (S : forall n w, steps (ways am t) n w = steps (ways am' t) n w).
    { induction n as [|n IHn]; intros v; simpl; auto. rewrite IH by auto. apply fm_ext. intros; apply IHn. }
    rewrite S. apply fm_ext. intros v _. generalize (optional mn mx v). intros n. revert v. 
    induction n as [|n IHn]; intros v; simpl; auto. rewrite IH by auto.
    assert (F : flat_map (fun r => if length r <? length v then more (ways am t) g n r else [r]) (ways am' t v) =
                flat_map (fun r => if length r <? length v then more (ways am' t) g n r else [r]) (ways am' t v)).
    { apply fm_ext. intros x _. destruct (_ <? _); auto. }
    rewrite F. auto.
  - apply H. left; auto.
Qed.

Lemma atom_eq_dec (a b : atom) : {a = b} + {a <> b}.
Proof. destruct (node_eqb (PAtom a) (PAtom b)) eqn:E; [left|right]. 
  - apply node_eqb_eq in E. congruence.
  - intros ->. rewrite (proj2 (node_eqb_eq (PAtom b) (PAtom b)) eq_refl) in E. discriminate.
Qed.

(** [reduce_choice_partial] with the condition on leaves only for those of the pattern *)
Lemma reduce_choice_leaves am text t t' :
  tree_ok t -> (forall a, In a (atoms t) -> single_step (am a)) ->
  joins_plain (fst (makeBinopsRightAssociative t)) ->
  (containsPossibleCountedRepetition text = false -> no_zero t) ->
  reduce text (Some t) = Ok (Some t') -> forall w, chosen am t' w = chosen am t w.
Proof.
  intros T S P Z E w. set (am' := fun a => if in_dec atom_eq_dec a (atoms t) then am a else fun _ => []).
  assert (L : has_look t = false). { destruct (has_look t) eqn:HL; auto. apply (lookaround_refused text) in HL. congruence. }
  destruct (reduce_hands_over (fun a => In a (atoms t)) text t t' T (proj2 (leafy_iff _ t) (conj L (fun a H => H))) Z E) as (LF & _).
  apply leafy_iff in LF as (_ & LF).
  assert (A : forall t0, (forall a, In a (atoms t0) -> In a (atoms t)) -> chosen am t0 w = chosen am' t0 w).
  { intros t0 H. unfold chosen. f_equal. apply ways_ext. intros a Ha v. unfold am'. destruct (in_dec atom_eq_dec a (atoms t)); auto. exfalso; auto. }
  rewrite (A t'), (A t) by auto.
  apply (reduce_choice_partial am' text t (Some t')); auto.
  intros a. unfold am'. destruct (in_dec atom_eq_dec a (atoms t)); auto. intros v. left. auto.
Qed.
