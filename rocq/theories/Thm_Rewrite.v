(** C35: what the rewrites of a parsed pattern keep, and what they do not.

    [lang] and [ways] (PatSpec.v) give a pattern its language and the order in which a backtracking
    matcher tries the ways to match; [chosen] is the first of them.  [ways_lang] shows that the two
    agree. *)
From Coq Require Import List NArith ZArith Bool Lia PeanoNat.
From Verif Require Import Base PatModel PatSpec RewriteProofs.
Import ListNotations.
Open Scope nat_scope.

(** * Rotating alternations and concatenations: nothing changes, not even the order. *)
Theorem right_associative_exact am t w :
  ways am (fst (makeBinopsRightAssociative t)) w = ways am t w.
Proof. apply right_assoc_ways. Qed.

(** * Removing {1} and making {n}? greedy: nothing changes. *)
Theorem useless_repetitions_exact am t w : bounds_ok t ->
  ways am (reduceUselessRepetitions t) w = ways am t w.
Proof. intros; apply useless_ways; auto. Qed.

(** * Combining equal neighbours keeps the language. *)
Theorem combine_language A t w : bounds_ok t -> (total t < UNBOUNDED)%N ->
  lang A (fst (combineConsecutiveRepetitions t)) w <-> lang A t w.
Proof. intros H K. destruct (combine_facts t H K) as (_ & _ & _ & _ & _ & _ & _ & S). apply S. Qed.

(** ... and the choice too, if each repetition combined with its neighbour has equal bounds or repeats
    a single character. *)
Theorem combine_choice am t w : bounds_ok t -> (total t < UNBOUNDED)%N -> joins_plain t -> (forall a, single_step (am a)) ->
  chosen am (fst (combineConsecutiveRepetitions t)) w = chosen am t w.
Proof. intros H K P S. apply oeq_hd, (combine_oeq am t S H K P). Qed.

(** * Trailing non-greedy repetitions: the choice is kept outside repetitions. *)
Theorem trailing_empty_choice_partial am t w : bounds_ok t -> calm t ->
  chosen am (fst (reduceTrailingNongreedyThenEmpty t)) w = chosen am t w.
Proof. intros; apply empty_hd; auto. Qed.

Theorem trailing_greedy_choice_partial am t w : bounds_ok t -> calm t -> (total t < UNBOUNDED)%N ->
  chosen am (fst (reduceTrailingNongreedyThenGreedy t)) w = chosen am t w.
Proof. intros; apply greedy_facts; auto. Qed.

(** * Empty subtrees: order and language are kept if a branch that matches only the empty text is the
    last one of its alternation. *)
Theorem empty_subtrees_exact_partial am t w : empty_branch_last t ->
  chosen am (reduceEmptySubtrees t) w = chosen am t w /\
  forall r, In r (ways am (reduceEmptySubtrees t) w) <-> In r (ways am t w).
Proof.
  intros H. pose proof (reduce_empty_oeq am t (last_left t H) w) as O.
  split; [apply oeq_hd, O|apply oeq_in, O].
Qed.

Lemma reduce_empty_nz t : has_only_zero_length_match t = false -> has_only_zero_length_match (reduceEmptySubtrees t) = false.
Proof.
  induction t as [k t IH|l IHl r IHr|l IHl r IHr|g t IH mn mx|a]; intros H; auto.
  - cbn [reduceEmptySubtrees]. rewrite H. simpl in H. specialize (IHl H).
    destruct (has_only_zero_length_match (reduceEmptySubtrees r)); simpl; auto.
  - cbn [reduceEmptySubtrees]. rewrite H. simpl in H.
    destruct (has_only_zero_length_match (reduceEmptySubtrees l)) eqn:El, (has_only_zero_length_match (reduceEmptySubtrees r)) eqn:Er; auto.
    + destruct (has_only_zero_length_match l); [|rewrite IHl in El; auto; discriminate].
      destruct (has_only_zero_length_match r); [discriminate|rewrite IHr in Er; auto].
    + simpl. rewrite El; auto.
  - cbn [reduceEmptySubtrees]. rewrite H. simpl in *. apply orb_false_elim in H. destruct H as (H1 & H2). rewrite H1, IH; auto.
Qed.

(** No {0} is left in the tree for the automaton builder. *)
Fixpoint no_zero (t : pnode) : Prop :=
  match t with
  | PLook _ _ => True
  | PAlt l r | PCat l r => no_zero l /\ no_zero r
  | PRep _ t mn mx => (mn <> 0 \/ mx <> 0)%N /\ no_zero t
  | PAtom _ => True
  end.

Theorem no_zero_repetition_left t : has_only_zero_length_match t = false -> no_zero (reduceEmptySubtrees t).
Proof.
  induction t as [k t IH|l IHl r IHr|l IHl r IHr|g t IH mn mx|a]; intros H; auto.
  - simpl; auto.
  - cbn [reduceEmptySubtrees]. rewrite H. simpl in H. specialize (IHl H).
    destruct (has_only_zero_length_match r) eqn:Er.
    + assert (E : reduceEmptySubtrees r = dummy) by (destruct r; simpl in *; try rewrite Er; auto; discriminate).
      rewrite E. simpl. split; auto. right; lia.
    + rewrite (reduce_empty_nz r) by auto. simpl; auto.
  - cbn [reduceEmptySubtrees]. rewrite H. simpl in H.
    assert (D : forall t, has_only_zero_length_match t = true -> reduceEmptySubtrees t = dummy).
    { intros t Ht. destruct t; simpl in *; try rewrite Ht; auto; discriminate. }
    destruct (has_only_zero_length_match l) eqn:El, (has_only_zero_length_match r) eqn:Er; try discriminate.
    + rewrite (D l) by auto. simpl. auto.
    + rewrite (reduce_empty_nz l), (D r) by auto. simpl. auto.
    + rewrite (reduce_empty_nz l), (reduce_empty_nz r) by auto. simpl; auto.
  - cbn [reduceEmptySubtrees]. rewrite H. simpl in *. apply orb_false_elim in H. destruct H as (H1 & H2).
    split; auto. destruct (N.eq_dec mn 0) as [->|]; auto. destruct (N.eq_dec mx 0) as [->|]; auto. discriminate.
  - simpl; auto.
Qed.

(** * All rewrites together, in the order of [reduce] *)

(** Look-arounds are refused. *)
Theorem lookaround_refused text t : has_look t = true <-> reduce text (Some t) = Throw.
Proof.
  unfold reduce. destruct (ra_facts t) as (_ & _ & _ & _ & _ & _ & E).
  destruct (makeBinopsRightAssociative t) as [t1 b1]. simpl in E. rewrite E.
  destruct (has_look t); [split; auto|]. split; [discriminate|].
  destruct (combineConsecutiveRepetitions t1) as [t2 b2].
  destruct (containsPossibleNongreedy text).
  - destruct (reduceTrailingNongreedyThenEmpty t2) as [t3 b3]. destruct (reduceTrailingNongreedyThenGreedy t3) as [t4 b4].
    destruct (_ || _); discriminate.
  - destruct (_ || _); discriminate.
Qed.

(** For every pattern without a non-greedy repetition inside a repetition, whose empty branches come
    last, and in which nothing is combined or only plain repetitions are: the match chosen at any place
    of any text is the same before and after.  Missing: the other patterns; see the refutations below. *)
Theorem reduce_choice_partial am text t o :
  tree_ok t -> (forall a, single_step (am a)) ->
  joins_plain (fst (makeBinopsRightAssociative t)) ->
  reduce text (Some t) = Ok o ->
  match o with
  | Some t' => forall w, chosen am t' w = chosen am t w
  | None => forall w, chosen am t w = Some w
  end.
Proof.
  intros [TB TT TC TL] HS HP. unfold reduce. unfold chosen.
  pose proof (right_assoc_ways am t) as RA. destruct (ra_facts t) as (R1 & R2 & _ & R4 & R5 & R6 & R7).
  destruct (makeBinopsRightAssociative t) as [t1 b1]. simpl in RA, R1, R2, R4, R5, R6, R7, HP.
  destruct (has_look t1); [discriminate|].
  specialize (R1 TB). specialize (R4 TC). specialize (R5 TL). rewrite <- R2 in TT.
  destruct (combine_facts t1 R1 TT) as (C1 & C2 & _ & C4 & _ & C6 & _ & _).
  assert (CH : forall w, hd_error (ways am (fst (combineConsecutiveRepetitions t1)) w) = hd_error (ways am t1 w)).
  { intros w. apply oeq_hd, (combine_oeq am t1 HS R1 TT HP). }
  destruct (combineConsecutiveRepetitions t1) as [t2 b2]. simpl in C1, C2, C4, C6, CH.
  specialize (C4 R4). specialize (C6 R5).
  assert (T4 : exists t4 b4, (if containsPossibleNongreedy text then
            let '(t3, b3) := reduceTrailingNongreedyThenEmpty t2 in
            let '(t4, b4) := reduceTrailingNongreedyThenGreedy t3 in (t4, b3 || b4)
          else (t2, false)) = (t4, b4) /\ bounds_ok t4 /\ inner_ok t4 /\
          (forall w, hd_error (ways am t4 w) = hd_error (ways am t2 w))).
  { destruct (containsPossibleNongreedy text).
    - destruct (empty_facts t2 C1 C4) as (E1 & E2 & E3). pose proof (empty_hd am t2 C1 C4) as EH.
      pose proof (empty_inner t2 C4 (last_left _ C6)) as EI.
      destruct (reduceTrailingNongreedyThenEmpty t2) as [t3 b3]. simpl in E1, E2, E3, EH, EI.
      assert (T3 : (total t3 < UNBOUNDED)%N) by lia.
      destruct (greedy_facts am t3 E1 E3 T3) as (G1 & G2 & G3 & GH).
      pose proof (greedy_inner t3 E1 E3 T3 EI) as GI.
      destruct (reduceTrailingNongreedyThenGreedy t3) as [t4 b4]. simpl in *.
      exists t4, (b3 || b4). repeat split; auto. intros w; rewrite GH; auto.
    - exists t2, false. repeat split; auto. apply left_inner, last_left; auto. }
  destruct T4 as (t4 & b4 & -> & B4 & I4 & H4).
  assert (All : forall w, hd_error (ways am t4 w) = hd_error (ways am t w)) by (intros w; rewrite H4, CH, RA; auto).
  destruct (b1 || b2 || b4 || containsPossibleCountedRepetition text).
  - intros E. injection E as <-. simpl. destruct (has_only_zero_length_match t4) eqn:Z.
    + intros w. rewrite <- All. apply only_zero_hd; auto.
    + intros w. rewrite useless_ways.
      * rewrite reduce_empty_hd; auto.
      * clear - B4. revert B4. induction t4 as [k t IH|l IHl r IHr|l IHl r IHr|g t IH mn mx|a]; intros HB; auto.
        -- cbn [reduceEmptySubtrees]. destruct (has_only_zero_length_match _); [simpl; unfold UNBOUNDED, two32; lia|].
           simpl in HB. destruct (has_only_zero_length_match _); simpl; unfold UNBOUNDED, two32; repeat split; try tauto; lia.
        -- cbn [reduceEmptySubtrees]. destruct (has_only_zero_length_match _); [simpl; unfold UNBOUNDED, two32; lia|].
           simpl in HB. destruct (has_only_zero_length_match _); [tauto|]. destruct (has_only_zero_length_match _); [tauto|]. simpl; tauto.
        -- cbn [reduceEmptySubtrees]. destruct (has_only_zero_length_match _); [simpl; unfold UNBOUNDED, two32; lia|].
           simpl in *; tauto.
  - intros E. injection E as <-. auto.
Qed.

(** * Where it fails *)

(** single bytes; 97 is 'a', 98 'b', 99 'c', 100 'd', 120 'x' *)
Definition lit (a : atom) (w : word) : list word :=
  match a, w with
  | ALit c, b :: r => if Z.eqb c (Z.of_N b) then [r] else []
  | _, _ => []
  end.
Definition LitA (a : atom) (w : word) : Prop := exists c, a = ALit c /\ w = [Z.to_N c] /\ (0 <= c)%Z.
Notation ch c := (PAtom (ALit c)).

(** `(a{0}|b)c` becomes `c`: in "bc" the match is lost, there is only the one in "c". *)
Theorem empty_subtrees_refuted : exists text t t',
  reduce text (Some t) = Ok (Some t') /\ chosen lit t [98; 99]%N = Some [] /\ chosen lit t' [98; 99]%N = None.
Proof.
  exists [40;97;123;48;125;124;98;41;99]%N,
    (PCat (PAlt (PRep true (ch 97) 0 0) (ch 98)) (ch 99)), (ch 99). vm_compute. auto.
Qed.

(** `(xa*?){2}` becomes `(x){2}`: "xaax" is no longer matched. *)
Theorem trailing_empty_refuted : exists text t t',
  reduce text (Some t) = Ok (Some t') /\ chosen lit t [120;97;97;120]%N = Some [] /\ chosen lit t' [120;97;97;120]%N = None.
Proof.
  exists [40;120;97;42;63;41;123;50;125]%N,
    (PRep true (PCat (ch 120) (PRep false (ch 97) 0 UNBOUNDED)) 2 2), (PRep true (ch 120) 2 2). vm_compute. auto.
Qed.

(** `(xa{0,5}?a){2}` becomes `(xa){2}`: "xaaxa" is no longer matched. *)
Theorem trailing_greedy_refuted : exists text t t',
  reduce text (Some t) = Ok (Some t') /\ chosen lit t [120;97;97;120;97]%N = Some [] /\ chosen lit t' [120;97;97;120;97]%N = None.
Proof.
  exists [40;120;97;123;48;44;53;125;63;97;41;123;50;125]%N,
    (PRep true (PCat (ch 120) (PCat (PRep false (ch 97) 0 5) (ch 97))) 2 2), (PRep true (PCat (ch 120) (ch 97)) 2 2). vm_compute. auto.
Qed.

(** `(a|ab){2,3}(a|ab){2,3}` becomes `(a|ab){4,6}`: in "aaaaba" the match of six bytes becomes one of four. *)
Theorem combine_choice_refuted : exists text t t',
  reduce text (Some t) = Ok (Some t') /\ chosen lit t [97;97;97;97;98;97]%N = Some [] /\ chosen lit t' [97;97;97;97;98;97]%N = Some [98;97]%N.
Proof.
  exists [40;97;124;97;98;41;123;50;44;51;125;40;97;124;97;98;41;123;50;44;51;125]%N.
  set (T := PRep true (PAlt (ch 97) (PCat (ch 97) (ch 98))) 2 3).
  exists (PCat T T), (PRep true (PAlt (ch 97) (PCat (ch 97) (ch 98))) 4 6). vm_compute. auto.
Qed.

Lemma pow_lit_nonempty n w c : pow (lang LitA (ch c)) (S n) w -> w <> [].
Proof. intros (u & v & -> & (d & _ & -> & _) & _). discriminate. Qed.

(** With `T` for `a{1073741824}`, `(x(TT))(TT)` becomes `x`: the sum of the bounds wraps to 0. *)
Theorem combine_wrap_refuted : exists text t t',
  reduce text (Some t) = Ok (Some t') /\ lang LitA t' [120%N] /\ ~ lang LitA t [120%N].
Proof.
  set (T := PRep true (ch 97) 1073741824 1073741824).
  exists [40;120;40;97;123]%N, (PCat (PCat (ch 120) (PCat T T)) (PCat T T)), (ch 120).
  split; [vm_compute; reflexivity|]. split.
  - exists 120%Z. repeat split; lia.
  - cbn [lang]. intros (u & v & E & (u1 & u2 & -> & (d & _ & -> & _) & _) & (v1 & v2 & -> & (n & (Hn & _) & Hp) & _)).
    destruct n as [|n]; [lia|]. apply pow_lit_nonempty in Hp. destruct v1; [congruence|].
    simpl in E. injection E as _ E. destruct u2; discriminate.
Qed.

(** * Cases meeting the hypotheses *)

(** `(b|c)(a+b)?x{2}x{2}d*?` and its reduction *)
Example demo : pnode :=
  PCat (PCat (PCat (PCat (PAlt (ch 98) (ch 99)) (PRep true (PCat (PRep true (ch 97) 1 UNBOUNDED) (ch 98)) 0 1))
       (PRep true (ch 120) 2 2)) (PRep true (ch 120) 2 2)) (PRep false (ch 100) 0 UNBOUNDED).

Example demo_ok : tree_ok demo.
Proof. split; vm_compute; intuition congruence. Qed.

Example demo_joins : joins_plain (fst (makeBinopsRightAssociative demo)).
Proof. vm_compute. intuition (auto; try discriminate). Qed.

Example demo_nothing_lost : exists t', reduce [40;98;124;99;41;63;120;123;50;125;120;123;50;125;100;42;63]%N (Some demo) = Ok (Some t') /\
  t' <> demo /\ forall text, text = [99;97;98;120;120;120;120;100]%N -> chosen lit t' text = Some [100%N] /\ chosen lit demo text = Some [100%N].
Proof.
  eexists. split; [vm_compute; reflexivity|]. split; [discriminate|]. intros text ->. vm_compute. auto.
Qed.

Example lit_single : forall a, single_step (lit a).
Proof.
  intros [|c y b|c|b] w; simpl; auto. destruct w as [|x w]; auto. destruct (Z.eqb c (Z.of_N x)); auto. right; exists w; simpl; auto.
Qed.

Example lit_leaves : leaves_ok LitA lit /\ leaves_nonempty LitA.
Proof.
  split.
  - intros a w r. split.
    + destruct a as [| |c|]; simpl; try tauto. destruct w as [|b w]; simpl; [tauto|].
      destruct (Z.eqb_spec c (Z.of_N b)) as [->|]; simpl; [|tauto]. intros [<-|[]]. exists [b]. repeat split; [discriminate|].
      exists (Z.of_N b). rewrite N2Z.id. repeat split. lia.
    + intros (p & -> & _ & c & -> & -> & Hc). simpl. rewrite Z2N.id, Z.eqb_refl by auto. simpl; auto.
  - intros a (c & _ & E & _). discriminate.
Qed.

Print Assumptions ways_lang.
Print Assumptions right_associative_exact.
Print Assumptions useless_repetitions_exact.
Print Assumptions combine_language.
Print Assumptions combine_choice.
Print Assumptions combine_choice_refuted.
Print Assumptions combine_wrap_refuted.
Print Assumptions trailing_empty_choice_partial.
Print Assumptions trailing_empty_refuted.
Print Assumptions trailing_greedy_choice_partial.
Print Assumptions trailing_greedy_refuted.
Print Assumptions empty_subtrees_exact_partial.
Print Assumptions empty_subtrees_refuted.
Print Assumptions no_zero_repetition_left.
Print Assumptions lookaround_refused.
Print Assumptions reduce_choice_partial.
