(** C21: code point sets behave as mathematical sets with a canonical form. *)
From Coq Require Import FinFun.
From Verif Require Import Base RangeSetModel RangeSetProofs.
Open Scope N_scope.

(** Every way to obtain a set through the public interface. *)
Inductive expr :=
| EEmpty                                  (* RangeSet() *)
| EFull                                   (* set() *)
| EPoint (a : N)                          (* RangeSet(val) *)
| ERange (a b : N)                        (* RangeSet(first, last) *)
| EBits (bits : list bool)                (* RangeSet(bitset<N>) *)
| EInsert (e : expr) (a b : N)            (* insert(first, last) *)
| EErase (e : expr) (a b : N)             (* erase(first, last) *)
| ESet (e : expr) (a : N) (v : bool)      (* set(pos, value), reset(pos), [pos] = value *)
| EFlipAt (e : expr) (a : N)              (* flip(pos) *)
| ENot (e : expr)                         (* ~, flip() *)
| EOr (e f : expr) | EAnd (e f : expr) | EXor (e f : expr) | ESub (e f : expr).

(** What the code computes. *)
Fixpoint run (M : N) (e : expr) : res rset :=
  match e with
  | EEmpty => Ok []
  | EFull => Ok (rs_full M)
  | EPoint a => Ok (rs_range_ctor a (a + 1))
  | ERange a b => Ok (rs_range_ctor a b)
  | EBits bits => Ok (rs_bitset_ctor M bits)
  | EInsert e a b => v <- run M e ;; Ok (rs_insert v a b)
  | EErase e a b => v <- run M e ;; rs_erase M v a b
  | ESet e a b => v <- run M e ;; rs_set M v a b
  | EFlipAt e a => v <- run M e ;; rs_flip_at M v a
  | ENot e => v <- run M e ;; rs_flip M v
  | EOr e f => v <- run M e ;; w <- run M f ;; rs_or v w
  | EAnd e f => v <- run M e ;; w <- run M f ;; rs_and M v w
  | EXor e f => v <- run M e ;; w <- run M f ;; rs_xor M v w
  | ESub e f => v <- run M e ;; w <- run M f ;; rs_sub M v w
  end.

(** What set algebra says. *)
Fixpoint members (e : expr) (x : N) : Prop :=
  match e with
  | EEmpty => False
  | EFull => True
  | EPoint a => x = a
  | ERange a b => a <= x < b
  | EBits bits => nth_error bits (N.to_nat x) = Some true
  | EInsert e a b => a <= x < b \/ members e x
  | EErase e a b => members e x /\ ~ (a <= x < b)
  | ESet e a v => if v then x = a \/ members e x else x <> a /\ members e x
  | EFlipAt e a => (x <> a /\ members e x) \/ (x = a /\ ~ members e x)
  | ENot e => ~ members e x
  | EOr e f => members e x \/ members f x
  | EAnd e f => members e x /\ members f x
  | EXor e f => (members e x /\ ~ members f x) \/ (~ members e x /\ members f x)
  | ESub e f => members e x /\ ~ members f x
  end.

(** The arguments the interface expects: positions inside the universe, ranges in order
    (and not empty for the two-argument constructor), a bitset as large as the universe. *)
Fixpoint args_ok (M : N) (e : expr) : Prop :=
  match e with
  | EEmpty | EFull => True
  | EPoint a => a < M
  | ERange a b => a < b /\ b <= M
  | EBits bits => N.of_nat (length bits) = M
  | EInsert e a b | EErase e a b => args_ok M e /\ a <= b /\ b <= M
  | ESet e a _ | EFlipAt e a => args_ok M e /\ a < M
  | ENot e => args_ok M e
  | EOr e f | EAnd e f | EXor e f | ESub e f => args_ok M e /\ args_ok M f
  end.

Lemma run_canon M e : 0 < M -> args_ok M e ->
  exists v, run M e = Ok v /\ canon M v /\ forall x, x < M -> (par v x = true <-> members e x).
Proof.
  intros HM.
  assert (R : forall a b, a < b -> b <= M -> canon M [a; b] /\ forall x, par [a; b] x = (a <=? x) && (x <? b)).
  { intros a b H1 H2. split; [split; [|reflexivity|]; repeat constructor; lia|].
    intros x. rewrite par_pair by (auto; constructor). unfold par at 1; simpl. apply orb_false_r. }
  assert (D : forall v x (P : Prop), (par v x = true <-> P) -> (par v x = false <-> ~ P)).
  { intros v x P [H1 H2]. destruct (par v x); split; intros H; try congruence; auto; try discriminate.
    - exfalso; auto. - intros HP; specialize (H2 HP); discriminate. }
  induction e as [| |a|a b|bits|e IH a b|e IH a b|e IH a b|e IH a|e IH|e IHe f IHf|e IHe f IHf|e IHe f IHf|e IHe f IHf];
    simpl args_ok; intros Ha.
  - exists []. split; [reflexivity|split; [apply canon_empty|]]. simpl. unfold par; simpl. intuition discriminate.
  - exists (rs_full M). split; [reflexivity|split; [apply canon_full; auto|]].
    intros x Hx. unfold rs_full. rewrite (proj2 (R 0 M HM ltac:(lia))). simpl.
    destruct (N.leb_spec 0 x), (N.ltb_spec x M); simpl; intuition lia.
  - exists [a; a+1]. split; [reflexivity|]. destruct (R a (a+1) ltac:(lia) ltac:(lia)) as [C P].
    split; auto. intros x Hx. rewrite P. simpl. destruct (N.leb_spec a x), (N.ltb_spec x (a+1)); simpl; intuition (try discriminate; lia).
  - exists [a; b]. split; [reflexivity|]. destruct (R a b ltac:(lia) ltac:(lia)) as [C P].
    split; auto. intros x Hx. rewrite P. simpl. destruct (N.leb_spec a x), (N.ltb_spec x b); simpl; intuition (try discriminate; lia).
  - destruct (bitset_ctor_spec M bits Ha) as [C P]. eexists; split; [reflexivity|split; [exact C|]].
    intros x Hx. rewrite P by auto. simpl.
    destruct (nth_error bits (N.to_nat x)) as [c|] eqn:E.
    + rewrite (nth_error_nth _ _ false E). split; congruence.
    + apply nth_error_None in E. lia.
  - destruct Ha as (Ha & H1 & H2). destruct (IH Ha) as (v & E & C & P).
    exists (rs_insert v a b). simpl. rewrite E. split; [reflexivity|split; [apply insert_canon; auto|]].
    intros x Hx. rewrite (insert_par M) by auto. rewrite <- P by auto.
    destruct (N.leb_spec a x), (N.ltb_spec x b), (par v x); simpl; intuition (try discriminate; lia).
  - destruct Ha as (Ha & H1 & H2). destruct (IH Ha) as (v & E & C & P).
    destruct (erase_spec M v a b HM C H1 H2) as (w & Ew & Cw & Pw). exists w. simpl. rewrite E.
    split; [exact Ew|split; [auto|]]. intros x Hx. rewrite Pw by auto. rewrite <- P by auto.
    destruct (N.leb_spec a x), (N.ltb_spec x b), (par v x); simpl; intuition (try discriminate; lia).
  - destruct Ha as (Ha & H1). destruct (IH Ha) as (v & E & C & P).
    destruct (set_spec M v a b HM C H1) as (w & Ew & Cw & Pw). exists w. simpl. rewrite E.
    split; [exact Ew|split; [auto|]]. intros x Hx. rewrite Pw by auto.
    destruct (N.eqb_spec x a), b; rewrite <- ?P by auto; destruct (par v x); intuition congruence.
  - destruct Ha as (Ha & H1). destruct (IH Ha) as (v & E & C & P).
    destruct (set_spec M v a (negb (rs_test v a)) HM C H1) as (w & Ew & Cw & Pw). exists w. simpl. rewrite E.
    split; [exact Ew|split; [auto|]]. intros x Hx. rewrite Pw, (test_par M) by auto.
    destruct (N.eqb_spec x a) as [->|]; rewrite <- P by auto; destruct (par v _); simpl; intuition congruence.
  - destruct (IH Ha) as (v & E & C & P). destruct (flip_spec M v HM C) as (w & Ew & Cw & Pw).
    exists w. simpl. rewrite E. split; [exact Ew|split; [auto|]]. intros x Hx. rewrite Pw by auto.
    rewrite <- P by auto. destruct (par v x); simpl; intuition congruence.
  - destruct Ha as (Ha & Hb). destruct (IHe Ha) as (v & E & C & P). destruct (IHf Hb) as (w & E2 & C2 & P2).
    destruct (or_spec M w v C2 C) as (u & Eu & Cu & Pu). exists u. simpl. rewrite E, E2.
    split; [exact Eu|split; [auto|]]. intros x Hx. rewrite Pu, <- P, <- P2 by auto.
    destruct (par v x), (par w x); simpl; intuition congruence.
  - destruct Ha as (Ha & Hb). destruct (IHe Ha) as (v & E & C & P). destruct (IHf Hb) as (w & E2 & C2 & P2).
    destruct (and_spec M v w HM C C2) as (u & Eu & Cu & Pu). exists u. simpl. rewrite E, E2.
    split; [exact Eu|split; [auto|]]. intros x Hx. rewrite Pu, <- P, <- P2 by auto.
    destruct (par v x), (par w x); simpl; intuition congruence.
  - destruct Ha as (Ha & Hb). destruct (IHe Ha) as (v & E & C & P). destruct (IHf Hb) as (w & E2 & C2 & P2).
    destruct (xor_spec M v w HM C C2) as (u & Eu & Cu & Pu). exists u. simpl. rewrite E, E2.
    split; [exact Eu|split; [auto|]]. intros x Hx. rewrite Pu, <- P, <- P2 by auto.
    destruct (par v x), (par w x); simpl; intuition congruence.
  - destruct Ha as (Ha & Hb). destruct (IHe Ha) as (v & E & C & P). destruct (IHf Hb) as (w & E2 & C2 & P2).
    destruct (sub_spec M v w HM C C2) as (u & Eu & Cu & Pu). exists u. simpl. rewrite E, E2.
    split; [exact Eu|split; [auto|]]. intros x Hx. rewrite Pu, <- P, <- P2 by auto.
    destruct (par v x), (par w x); simpl; intuition congruence.
Qed.

(** Membership is what set algebra says, and no operation reads outside the vector. *)
Theorem rangeset_membership M e : 0 < M -> args_ok M e ->
  exists v, run M e = Ok v /\ forall x, x < M -> (rs_test v x = true <-> members e x).
Proof.
  intros HM Ha. destruct (run_canon M e HM Ha) as (v & E & C & P). exists v; split; auto.
  intros x Hx. rewrite (test_par M) by auto. auto.
Qed.
Print Assumptions rangeset_membership.

(** Nothing outside the universe is ever a member. *)
Theorem rangeset_inside_universe M e v x : 0 < M -> args_ok M e -> run M e = Ok v -> M <= x -> rs_test v x = false.
Proof.
  intros HM Ha E Hx. destruct (run_canon M e HM Ha) as (v' & E' & C & P).
  assert (v' = v) by congruence. subst v'. rewrite (test_par M) by auto. unfold par.
  rewrite cnt_all; [|eapply Forall_impl; [|apply C]; simpl; intros; lia].
  rewrite <- Nat.negb_even, (c_even _ _ C). reflexivity.
Qed.
Print Assumptions rangeset_inside_universe.

(** Two sets compare equal (operator==, which compares the vectors) iff they have the same members. *)
Theorem rangeset_equality M e f v w : 0 < M -> args_ok M e -> args_ok M f ->
  run M e = Ok v -> run M f = Ok w ->
  (v = w <-> forall x, x < M -> (members e x <-> members f x)).
Proof.
  intros HM Ha Hb E F. destruct (run_canon M e HM Ha) as (v' & E' & C & P).
  destruct (run_canon M f HM Hb) as (w' & F' & C2 & P2).
  assert (v' = v) by congruence. assert (w' = w) by congruence. subst. split.
  - intros <- x Hx. rewrite <- P, <- P2 by auto. reflexivity.
  - intros H. apply (canon_unique M); auto. intros x Hx. specialize (H x Hx).
    rewrite <- P, <- P2 in H by auto. destruct (par v x), (par w x); intuition congruence.
Qed.
Print Assumptions rangeset_equality.

(** [any], [none], [all] and [count] describe the members. *)
Theorem rangeset_queries M e v : 0 < M -> args_ok M e -> run M e = Ok v ->
  (rs_any v = true <-> exists x, x < M /\ members e x) /\
  (rs_all M v = true <-> forall x, x < M -> members e x) /\
  (exists l, NoDup l /\ (forall x, In x l <-> x < M /\ members e x) /\ rs_count v = Ok (N.of_nat (length l))).
Proof.
  intros HM Ha E. destruct (run_canon M e HM Ha) as (v' & E' & C & P).
  assert (v' = v) by congruence. subst v'. split; [|split].
  - destruct v as [|a [|b t]]; simpl.
    + split; [discriminate|]. intros (x & Hx & Hm). apply P in Hm; auto. 
    + destruct C as [_ He _]; discriminate.
    + split; auto. intros _. destruct (even_SS_tail _ _ _ _ C) as (Ht & Hab & HbM & Hf).
      exists a. split; [lia|]. apply P; [lia|]. rewrite par_pair by auto.
      destruct (N.leb_spec a a), (N.ltb_spec a b); auto; lia.
  - split.
    + intros H. assert (v = rs_full M).
      { destruct v as [|a [|b [|c t]]]; simpl in H; try discriminate. apply andb_prop in H as [H1 H2].
        apply N.eqb_eq in H1, H2. subst. reflexivity. }
      subst v. intros x Hx. apply P; auto. unfold rs_full. rewrite par_pair by (auto; constructor).
      destruct (N.leb_spec 0 x), (N.ltb_spec x M); auto; lia.
    + intros H. assert (v = rs_full M) as ->.
      { apply (canon_unique M); auto using canon_full. intros x Hx. unfold rs_full. rewrite par_pair by (auto; constructor).
        rewrite (proj2 (P x Hx) (H x Hx)). destruct (N.leb_spec 0 x), (N.ltb_spec x M); auto; lia. }
      simpl. rewrite !N.eqb_refl. reflexivity.
  - exists (filter (par v) (map N.of_nat (seq 0 (N.to_nat M)))). split; [|split].
    + apply NoDup_filter. apply Injective_map_NoDup; [intros x y; lia|apply seq_NoDup].
    + intros x. rewrite filter_In, in_map_iff. split.
      * intros [(k & <- & Hk) H]. apply in_seq in Hk. split; [lia|]. apply P; auto; lia.
      * intros [Hx Hm]. split; [|apply P; auto]. exists (N.to_nat x). split; [lia|]. apply in_seq; lia.
    + rewrite (count_spec M) by auto. f_equal. generalize (N.to_nat M). induction n as [|n IH]; [reflexivity|]. cbn [sum_below].
      rewrite seq_S, map_app, filter_app, app_length, IH. simpl.
      unfold indicator. destruct (par v (N.of_nat n)); simpl; lia.
Qed.
Print Assumptions rangeset_queries.

(** The hypotheses are met by a set that uses every operation. *)
Definition example_set : expr :=
  EXor (ESub (EOr (EInsert (EInsert EEmpty 65 91) 97 123) (ERange 48 58)) (EErase EFull 0 70))
       (EAnd (EFlipAt (ESet (EPoint 3) 5 true) 5) (ENot (EBits (repeat false 1000 ++ repeat true 24)))).

Example example_set_ok : args_ok 1024 example_set.
Proof. vm_compute. intuition congruence. Qed.

Example example_set_value : run 1024 example_set = Ok [3; 4; 48; 58; 65; 70].
Proof. vm_compute. reflexivity. Qed.

(** Without the last condition of [args_ok] the constructor from a bitset is wrong: a run
    of ones that reaches the end of a bitset smaller than the universe is dropped
    (rangeset.h:79 compares with N where BN is meant). *)
Theorem rangeset_small_bitset_refuted :
  exists M bits x, N.of_nat (length bits) <= M /\ nth_error bits (N.to_nat x) = Some true /\
    rs_test (rs_bitset_ctor M bits) x = false.
Proof. exists 1114112, [false; true], 1. vm_compute. repeat split; congruence. Qed.
Print Assumptions rangeset_small_bitset_refuted.

(** The two-argument constructor given an empty range [a,a) makes a set that contains [a],
    whereas inserting the same range into an empty set leaves it empty. *)
Theorem rangeset_empty_range_refuted :
  exists a, rs_test (rs_range_ctor a a) a = true /\ rs_test (rs_insert [] a a) a = false.
Proof. exists 5. vm_compute. split; reflexivity. Qed.
Print Assumptions rangeset_empty_range_refuted.
