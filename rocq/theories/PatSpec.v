(** What a pattern matches: its language, and the order in which a backtracking matcher would try the
    ways to match it.  Independent of the rewrites and of the automaton; the meaning of the leaves
    is a parameter. *)
From Coq Require Import List NArith ZArith Bool Lia PeanoNat Permutation.
From Verif Require Import Base PatModel.
Import ListNotations.
Open Scope nat_scope.

Notation word := (list N).

(** [n] words of [L] one after the other *)
Fixpoint pow (L : word -> Prop) (n : nat) (w : word) : Prop :=
  match n with
  | O => w = []
  | S m => exists u v, w = u ++ v /\ L u /\ pow L m v
  end.

(** [n] repetitions are allowed by the bounds *)
Definition within (mn mx : N) (n : nat) : Prop := (mn <= N.of_nat n)%N /\ (mx = UNBOUNDED \/ (N.of_nat n <= mx)%N).

Fixpoint lang (A : atom -> word -> Prop) (t : pnode) (w : word) : Prop :=
  match t with
  | PLook _ _ => False
  | PAlt l r => lang A l w \/ lang A r w
  | PCat l r => exists u v, w = u ++ v /\ lang A l u /\ lang A r v
  | PRep _ t mn mx => exists n, within mn mx n /\ pow (lang A t) n w
  | PAtom a => A a w
  end.

(** Backtracking: the list of what is left of the text after a match, most preferred first.
    [steps] is [n] mandatory repetitions; [more] is at most [k] optional ones: greedy ones try to
    repeat before they stop, non-greedy ones stop first.  An empty repetition ends the loop. *)
Fixpoint steps (body : word -> list word) (n : nat) (w : word) : list word :=
  match n with
  | O => [w]
  | S m => flat_map (steps body m) (body w)
  end.

Fixpoint more (body : word -> list word) (greedy : bool) (k : nat) (w : word) : list word :=
  match k with
  | O => [w]
  | S m =>
      let again := flat_map (fun r => if (length r <? length w)%nat then more body greedy m r else [r]) (body w) in
      if greedy then again ++ [w] else w :: again
  end.

(** the number of optional repetitions; an unbounded loop cannot shorten the text more often than it
    has bytes *)
Definition optional (mn mx : N) (w : word) : nat := if (mx =? UNBOUNDED)%N then length w else N.to_nat (mx - mn).

Fixpoint ways (am : atom -> word -> list word) (t : pnode) (w : word) : list word :=
  match t with
  | PLook _ _ => []
  | PAlt l r => ways am l w ++ ways am r w
  | PCat l r => flat_map (ways am r) (ways am l w)
  | PRep g t mn mx =>
      flat_map (fun r => more (ways am t) g (optional mn mx r) r) (steps (ways am t) (N.to_nat mn) w)
  | PAtom a => am a w
  end.

(** the match a backtracking matcher settles for *)
Definition chosen am t w : option word := hd_error (ways am t w).

(** The parser checks the order of the bounds (re_grammar.ypp:238, 275); they are non-negative ints, or
    the upper one is UNBOUNDED. *)
Fixpoint bounds_ok (t : pnode) : Prop :=
  match t with
  | PLook _ t => bounds_ok t
  | PAlt l r | PCat l r => bounds_ok l /\ bounds_ok r
  | PRep _ t mn mx => (mn <= mx)%N /\ (mn < UNBOUNDED)%N /\ (mx < two32)%N /\ bounds_ok t
  | PAtom _ => True
  end.

(** Leaves: what is left is a proper suffix. *)
Definition leaves_ok (A : atom -> word -> Prop) (am : atom -> word -> list word) : Prop :=
  forall a w r, In r (am a w) <-> exists p, w = p ++ r /\ p <> [] /\ A a p.
Definition leaves_nonempty (A : atom -> word -> Prop) : Prop := forall a, ~ A a [].

(** * The two meanings agree *)

Lemma within_S mn mx n : within (N.succ mn) mx (S n) -> within mn mx (S n).
Proof. unfold within. lia. Qed.

Lemma pow_app L n m u v : pow L n u -> pow L m v -> pow L (n + m) (u ++ v).
Proof.
  revert u; induction n as [|n IH]; simpl; intros u H K.
  - subst; auto.
  - destruct H as (a & b & -> & Ha & Hb). exists a, (b ++ v). rewrite app_assoc. auto.
Qed.

Lemma pow_split L n m w : pow L (n + m) w -> exists u v, w = u ++ v /\ pow L n u /\ pow L m v.
Proof.
  revert w; induction n as [|n IH]; simpl; intros w H.
  - exists [], w; auto.
  - destruct H as (a & b & -> & Ha & Hb). destruct (IH _ Hb) as (u & v & -> & Hu & Hv).
    exists (a ++ u), v. rewrite app_assoc. repeat split; eauto.
Qed.

Lemma pow_ext L1 L2 n w : (forall x, L1 x <-> L2 x) -> pow L1 n w <-> pow L2 n w.
Proof.
  intros H. revert w; induction n as [|n IH]; simpl; intros w; [tauto|].
  split; intros (u & v & E & K1 & K2); exists u, v; (split; [exact E|]); split; try (apply H; exact K1); apply IH; exact K2.
Qed.

(** leave out the empty repetitions *)
Lemma pow_skip L n w : pow L n w -> exists m, m <= n /\ m <= length w /\ pow (fun x => L x /\ x <> []) m w.
Proof.
  revert w; induction n as [|n IH]; simpl; intros w H.
  - subst. exists 0; simpl; auto.
  - destruct H as (u & v & -> & Hu & Hv). destruct (IH _ Hv) as (m & A1 & A2 & A3).
    destruct u as [|b u].
    + exists m. simpl. repeat split; auto; lia.
    + exists (S m). repeat split; try lia.
      * rewrite app_length; simpl; lia.
      * exists (b :: u), v. repeat split; auto. discriminate.
Qed.

Section Agree.
Context (L : word -> Prop) (body : word -> list word).
Hypothesis HB : forall w r, In r (body w) <-> exists p, w = p ++ r /\ L p.

Lemma steps_spec n : forall w r, In r (steps body n w) <-> exists p, w = p ++ r /\ pow L n p.
Proof.
  induction n as [|n IH]; simpl; intros w r.
  - split.
    + intros [->|[]]. exists []; auto.
    + intros (p & -> & ->). auto.
  - rewrite in_flat_map. split.
    + intros (x & Hx & Hr). apply HB in Hx. destruct Hx as (p & -> & Hp). apply IH in Hr. destruct Hr as (q & -> & Hq).
      exists (p ++ q). rewrite app_assoc. split; auto. exists p, q; auto.
    + intros (p & -> & u & v & -> & Hu & Hv). exists (v ++ r). split.
      * apply HB. exists u. rewrite app_assoc; auto.
      * apply IH. exists v; auto.
Qed.

Lemma more_sound g k : forall w r, In r (more body g k w) -> exists p n, w = p ++ r /\ n <= k /\ pow L n p.
Proof.
  induction k as [|k IH]; intros w r.
  - simpl. intros [->|[]]. exists [], 0. simpl; auto.
  - intros H.
    assert (H' : r = w \/ In r (flat_map (fun r => if (length r <? length w)%nat then more body g k r else [r]) (body w))).
    { simpl in H. destruct g; [rewrite in_app_iff in H; simpl in H|simpl in H]; intuition. }
    clear H. destruct H' as [->|H].
    + exists [], 0. simpl. repeat split; auto with arith.
    + apply in_flat_map in H. destruct H as (x & Hx & Hr). apply HB in Hx. destruct Hx as (p & -> & Hp).
      destruct (length x <? length (p ++ x)) eqn:E.
      * destruct (IH _ _ Hr) as (q & n & -> & Hn & Hq). exists (p ++ q), (S n). rewrite app_assoc.
        repeat split; auto with arith. exists p, q; auto.
      * destruct Hr as [->|[]]. exists p, 1. repeat split; auto with arith. exists p, []. rewrite app_nil_r. simpl; auto.
Qed.

Lemma more_complete g k : forall n p r, n <= k -> pow (fun x => L x /\ x <> []) n p -> In r (more body g k (p ++ r)).
Proof.
  induction k as [|k IH]; intros n p r Hn H.
  - destruct n; [|lia]. simpl in H. subst. simpl; auto.
  - destruct n as [|n].
    + simpl in H; subst. simpl. destruct g; simpl; auto. apply in_or_app; right; simpl; auto.
    + destruct H as (u & v & -> & (Hu & Hne) & Hv).
      assert (K : In r (flat_map (fun x => if (length x <? length ((u ++ v) ++ r))%nat then more body g k x else [x]) (body ((u ++ v) ++ r)))).
      { apply in_flat_map. exists (v ++ r). split.
        - apply HB. exists u. rewrite app_assoc; auto.
        - replace (length (v ++ r) <? length ((u ++ v) ++ r)) with true.
          + apply IH with n; auto; lia.
          + symmetry; apply Nat.ltb_lt. destruct u; [congruence|]. rewrite !app_length; simpl; lia. }
      simpl. destruct g; [apply in_or_app; auto|right; auto].
Qed.

Lemma rep_spec g mn mx w r : (mn <= mx)%N ->
  In r (flat_map (fun r => more body g (optional mn mx r) r) (steps body (N.to_nat mn) w)) <->
  exists p, w = p ++ r /\ exists n, within mn mx n /\ pow L n p.
Proof.
  intros Hb. rewrite in_flat_map. split.
  - intros (x & Hx & Hr). apply steps_spec in Hx. destruct Hx as (p & -> & Hp).
    apply more_sound in Hr. destruct Hr as (q & n & -> & Hn & Hq).
    exists (p ++ q). rewrite app_assoc. split; auto. exists (N.to_nat mn + n). split.
    + unfold within, optional in *. split; [lia|]. destruct (mx =? UNBOUNDED)%N eqn:E; [left; lia|right; lia].
    + apply pow_app; auto.
  - intros (p & -> & n & (Hn1 & Hn2) & Hp).
    replace n with (N.to_nat mn + (n - N.to_nat mn)) in Hp by lia.
    apply pow_split in Hp. destruct Hp as (u & v & -> & Hu & Hv).
    exists (v ++ r). split.
    + apply steps_spec. exists u. rewrite app_assoc; auto.
    + apply pow_skip in Hv. destruct Hv as (m & M1 & M2 & M3). apply more_complete with m; auto.
      unfold optional. destruct (mx =? UNBOUNDED)%N eqn:E.
      * rewrite app_length; lia.
      * lia.
Qed.
End Agree.

Theorem ways_lang A am t : leaves_ok A am -> leaves_nonempty A -> bounds_ok t ->
  forall w r, In r (ways am t w) <-> exists p, w = p ++ r /\ lang A t p.
Proof.
  intros HL HN. induction t as [k t IH|l IHl r IHr|l IHl r IHr|g t IH mn mx|a]; simpl; intros HB w x.
  - split; [tauto|]. intros (? & _ & []).
  - rewrite in_app_iff, IHl, IHr by tauto. split.
    + intros [(p & E & H)|(p & E & H)]; exists p; auto.
    + intros (p & E & [H|H]); eauto.
  - rewrite in_flat_map. split.
    + intros (y & Hy & Hx). apply IHl in Hy; [|tauto]. apply IHr in Hx; [|tauto].
      destruct Hy as (p & -> & Hp). destruct Hx as (q & -> & Hq). exists (p ++ q). rewrite app_assoc. eauto 7.
    + intros (p & -> & u & v & -> & Hu & Hv). exists (v ++ x). split.
      * apply IHl; [tauto|]. exists u. rewrite app_assoc; auto.
      * apply IHr; [tauto|]. eauto.
  - apply (rep_spec (lang A t) (ways am t)); [|tauto]. intros; apply IH; tauto.
  - rewrite (HL a). split.
    + intros (p & E & _ & H); eauto.
    + intros (p & E & H). exists p. repeat split; auto. intros ->. exact (HN a H).
Qed.
