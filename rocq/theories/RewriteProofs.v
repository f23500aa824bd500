(** Lemmas about the rewrites of PatModel.v. *)
From Coq Require Import List NArith ZArith Bool Lia PeanoNat.
From Verif Require Import Base PatModel PatSpec.
Import ListNotations.
Open Scope nat_scope.

(** * Lists *)
Lemma fm_nil {A B} (f : A -> list B) l : (forall x, In x l -> f x = []) -> flat_map f l = [].
Proof. induction l as [|x l IH]; simpl; intros H; auto. rewrite H, IH; auto. Qed.

Lemma fm_fm {A B C} (f : A -> list B) (g : B -> list C) l :
  flat_map g (flat_map f l) = flat_map (fun x => flat_map g (f x)) l.
Proof. induction l as [|x l IH]; simpl; auto. rewrite flat_map_app, IH; auto. Qed.

Lemma fm_ext {A B} (f g : A -> list B) l : (forall x, In x l -> f x = g x) -> flat_map f l = flat_map g l.
Proof. induction l as [|x l IH]; simpl; intros H; auto. rewrite H, IH; auto. Qed.

Lemma fm_single {A} (l : list A) : flat_map (fun x => [x]) l = l.
Proof. induction l as [|x l IH]; simpl; congruence. Qed.

Lemma hd_app {A} (a b : list A) : hd_error (a ++ b) = match hd_error a with Some x => Some x | None => hd_error b end.
Proof. destruct a; auto. Qed.

Lemma hd_fm {A B} (f g : A -> list B) l :
  (forall x, In x l -> hd_error (f x) = hd_error (g x)) -> hd_error (flat_map f l) = hd_error (flat_map g l).
Proof.
  induction l as [|x l IH]; simpl; intros H; auto. rewrite !hd_app, H, IH; auto.
Qed.

Lemma hd_fm_total {A B} (f : A -> list B) l : (forall x, f x <> []) ->
  hd_error (flat_map f l) = match hd_error l with Some x => hd_error (f x) | None => None end.
Proof.
  intros H. destruct l as [|x l]; simpl; auto. rewrite hd_app. specialize (H x). destruct (f x); simpl; congruence.
Qed.

Lemma hd_nil {A} (a b : list A) : hd_error a = hd_error b -> a = [] <-> b = [].
Proof. destruct a, b; simpl; intros H; split; intros; auto; discriminate. Qed.

(** * Order and membership, up to later repeats *)
Inductive oeq {A} : list A -> list A -> Prop :=
| oeq_refl l : oeq l l
| oeq_dup a x b c : oeq (a ++ x :: b ++ x :: c) (a ++ x :: b ++ c)
| oeq_sym l m : oeq l m -> oeq m l
| oeq_trans l m n : oeq l m -> oeq m n -> oeq l n.

Lemma oeq_hd {A} (l m : list A) : oeq l m -> hd_error l = hd_error m.
Proof. induction 1; try congruence. destruct a; auto. Qed.

Lemma oeq_in {A} (l m : list A) : oeq l m -> forall x, In x l <-> In x m.
Proof.
  induction 1 as [|a x b c|?? ? IH|???? IH1 ? IH2]; intros y; try tauto.
  - rewrite !in_app_iff; simpl; rewrite !in_app_iff; simpl; tauto.
  - rewrite IH; tauto.
  - rewrite IH1; auto.
Qed.

Lemma oeq_ctx {A} (p q l m : list A) : oeq l m -> oeq (p ++ l ++ q) (p ++ m ++ q).
Proof.
  induction 1 as [|a x b c|?? ? IH|???? IH1 ? IH2].
  - apply oeq_refl.
  - pose proof (oeq_dup (p ++ a) x b (c ++ q)) as H.
    replace (p ++ (a ++ x :: b ++ x :: c) ++ q) with ((p ++ a) ++ x :: b ++ x :: c ++ q).
    2:{ rewrite <- !app_assoc; simpl; rewrite <- !app_assoc; simpl; auto. }
    replace (p ++ (a ++ x :: b ++ c) ++ q) with ((p ++ a) ++ x :: b ++ c ++ q).
    2:{ rewrite <- !app_assoc; simpl; rewrite <- !app_assoc; simpl; auto. }
    auto.
  - apply oeq_sym; auto.
  - eapply oeq_trans; eauto.
Qed.

Lemma oeq_app {A} (a b c d : list A) : oeq a b -> oeq c d -> oeq (a ++ c) (b ++ d).
Proof.
  intros H K. apply oeq_trans with (b ++ c).
  - pose proof (oeq_ctx [] c _ _ H); auto.
  - pose proof (oeq_ctx b [] _ _ K) as X. rewrite !app_nil_r in X; auto.
Qed.

(** what occurs before can be left out *)
Lemma oeq_absorb {A} (a b c : list A) : incl b a -> oeq (a ++ b ++ c) (a ++ c).
Proof.
  revert a; induction b as [|x b IH]; intros a H; [apply oeq_refl|].
  assert (Hx : In x a) by (apply H; simpl; auto).
  apply oeq_trans with (a ++ b ++ c).
  - apply in_split in Hx. destruct Hx as (a1 & a2 & ->).
    pose proof (oeq_dup a1 x a2 (b ++ c)) as D. rewrite <- !app_assoc. simpl. exact D.
  - apply IH. intros y Hy; apply H; simpl; auto.
Qed.

Lemma incl_fm {A B} (f : A -> list B) x l : In x l -> incl (f x) (flat_map f l).
Proof. intros H y Hy. apply in_flat_map. eauto. Qed.

Lemma oeq_fm_l {A B} (f : A -> list B) l m : oeq l m -> oeq (flat_map f l) (flat_map f m).
Proof.
  induction 1 as [|a x b c|?? ? IH|???? IH1 ? IH2].
  - apply oeq_refl.
  - rewrite !flat_map_app. simpl. rewrite !flat_map_app. simpl.
    replace (flat_map f a ++ f x ++ flat_map f b ++ f x ++ flat_map f c)
      with ((flat_map f a ++ f x ++ flat_map f b) ++ f x ++ flat_map f c) by (rewrite <- !app_assoc; auto).
    replace (flat_map f a ++ f x ++ flat_map f b ++ flat_map f c)
      with ((flat_map f a ++ f x ++ flat_map f b) ++ flat_map f c) by (rewrite <- !app_assoc; auto).
    apply oeq_absorb. intros y Hy. rewrite !in_app_iff. auto.
  - apply oeq_sym; auto.
  - eapply oeq_trans; eauto.
Qed.

Lemma oeq_fm_r {A B} (f g : A -> list B) l : (forall x, oeq (f x) (g x)) -> oeq (flat_map f l) (flat_map g l).
Proof. intros H; induction l; simpl; [apply oeq_refl|]. apply oeq_app; auto. Qed.

Lemma oeq_fm {A B} (f g : A -> list B) l m : oeq l m -> (forall x, oeq (f x) (g x)) -> oeq (flat_map f l) (flat_map g m).
Proof. intros H K. eapply oeq_trans; [apply oeq_fm_l, H|apply oeq_fm_r, K]. Qed.

Lemma oeq_steps (f g : word -> list word) n : (forall w, oeq (f w) (g w)) -> forall w, oeq (steps f n w) (steps g n w).
Proof. intros H; induction n; simpl; intros w; [apply oeq_refl|]. apply oeq_fm; auto. Qed.

Lemma oeq_more (f g : word -> list word) gr k : (forall w, oeq (f w) (g w)) -> forall w, oeq (more f gr k w) (more g gr k w).
Proof.
  intros H; induction k; simpl; intros w; [apply oeq_refl|].
  assert (K : oeq (flat_map (fun r => if length r <? length w then more f gr k r else [r]) (f w))
                  (flat_map (fun r => if length r <? length w then more g gr k r else [r]) (g w))).
  { apply oeq_fm; auto. intros x. destruct (length x <? length w); [apply IHk|apply oeq_refl]. }
  destruct gr.
  - apply oeq_app; [auto|apply oeq_refl].
  - apply (oeq_app [w] [w]); [apply oeq_refl|auto].
Qed.

(** * Repetition *)
Lemma steps_add f a c w : steps f (a + c) w = flat_map (steps f c) (steps f a w).
Proof.
  revert w; induction a; simpl; intros w.
  - rewrite app_nil_r; auto.
  - rewrite fm_fm. apply fm_ext; auto.
Qed.

Lemma more_0_in f g k w : In w (more f g k w).
Proof. destruct k; simpl; auto. destruct g; [apply in_or_app; right|]; simpl; auto. Qed.

Lemma more_nonempty f g k w : more f g k w <> [].
Proof. intros E. pose proof (more_0_in f g k w) as H. rewrite E in H. destruct H. Qed.

Lemma more_ng_hd f k w : hd_error (more f false k w) = Some w.
Proof. destruct k; auto. Qed.

Lemma more_reach f g k : forall w r, In r (more f g k w) -> exists n, In r (steps f n w).
Proof.
  induction k as [|k IH]; intros w r H.
  - exists 0; auto.
  - assert (H' : r = w \/ In r (flat_map (fun r => if (length r <? length w)%nat then more f g k r else [r]) (f w))).
    { simpl in H. destruct g; [rewrite in_app_iff in H; simpl in H|simpl in H]; intuition. }
    destruct H' as [->|K]; [exists 0; simpl; auto|].
    apply in_flat_map in K. destruct K as (x & Hx & Hr). destruct (length x <? length w).
    + destruct (IH _ _ Hr) as (n & Hn). exists (S n). simpl. apply in_flat_map; eauto.
    + destruct Hr as [->|[]]. exists 1. simpl. apply in_flat_map. exists r; simpl; auto.
Qed.

Lemma opt_same mn w : (mn < UNBOUNDED)%N -> optional mn mn w = 0.
Proof. intros H. unfold optional. destruct (mn =? UNBOUNDED)%N eqn:E; lia. Qed.

Lemma ways_once am g t w : ways am (PRep g t 1 1) w = ways am t w.
Proof.
  simpl. change (N.to_nat 1) with 1. simpl. rewrite fm_single. rewrite <- (fm_single (ways am t w)) at 2.
  apply fm_ext; auto.
Qed.

Lemma ways_exact am g t n w : (n < UNBOUNDED)%N -> ways am (PRep g t n n) w = steps (ways am t) (N.to_nat n) w.
Proof.
  intros H. simpl. rewrite <- (fm_single (steps _ _ w)) at 2. apply fm_ext. intros x _. rewrite opt_same; auto.
Qed.

(** * The size of a tree *)
Definition weight (mn mx : N) : N := if (mx =? UNBOUNDED)%N then mn else mx.
Fixpoint total (t : pnode) : N :=
  match t with
  | PLook _ t => total t
  | PAlt l r | PCat l r => total l + total r
  | PRep _ t mn mx => weight mn mx + total t
  | PAtom _ => 1
  end.

Lemma total_pos t : (0 < total t)%N.
Proof. induction t; simpl; lia. Qed.

(** * makeBinopsRightAssociative *)
Lemma right_assoc_ways am t : forall w, ways am (fst (makeBinopsRightAssociative t)) w = ways am t w.
Proof.
  induction t as [k t IH|l IHl r IHr|l IHl r IHr|g t IH mn mx|a]; simpl; intros w; auto.
  - destruct (makeBinopsRightAssociative t); auto.
  - destruct (makeBinopsRightAssociative l) as [l' b1], (makeBinopsRightAssociative r) as [r' b2]; simpl in *.
    rewrite <- IHl, <- IHr. destruct l'; simpl; auto. rewrite app_assoc; auto.
  - destruct (makeBinopsRightAssociative l) as [l' b1], (makeBinopsRightAssociative r) as [r' b2]; simpl in *.
    rewrite <- IHl. clear IHl.
    assert (G : ways am (PCat l' r') w = flat_map (ways am r) (ways am l' w)) by (simpl; apply fm_ext; auto).
    destruct l' as [| |e f| |]; try exact G.
    rewrite <- G. cbn [fst ways]. rewrite fm_fm. auto.
  - destruct (makeBinopsRightAssociative t) as [t' b]; simpl in *.
    assert (E : forall n w, steps (ways am t') n w = steps (ways am t) n w).
    { induction n; simpl; intros; auto. rewrite IH. apply fm_ext; auto. }
    assert (M : forall k w, more (ways am t') g k w = more (ways am t) g k w).
    { induction k as [|k IHk]; simpl; intros v; auto. rewrite IH.
      assert (X : flat_map (fun r => if length r <? length v then more (ways am t') g k r else [r]) (ways am t v) =
                  flat_map (fun r => if length r <? length v then more (ways am t) g k r else [r]) (ways am t v)).
      { apply fm_ext; intros x _. destruct (length x <? length v); auto. }
      rewrite X; auto. }
    rewrite E. apply fm_ext; intros; apply M.
Qed.

(** bodies that behave the same can be exchanged *)
Lemma rep_ext am t t' g mn mx w : (forall w, ways am t' w = ways am t w) -> ways am (PRep g t' mn mx) w = ways am (PRep g t mn mx) w.
Proof.
  intros IH. simpl.
  assert (E : forall n w, steps (ways am t') n w = steps (ways am t) n w).
  { induction n; simpl; intros; auto. rewrite IH. apply fm_ext; auto. }
  assert (M : forall k w, more (ways am t') g k w = more (ways am t) g k w).
  { induction k as [|k IHk]; simpl; intros v; auto. rewrite IH.
    assert (X : flat_map (fun r => if length r <? length v then more (ways am t') g k r else [r]) (ways am t v) =
                flat_map (fun r => if length r <? length v then more (ways am t) g k r else [r]) (ways am t v)).
    { apply fm_ext; intros x _. destruct (length x <? length v); auto. }
    rewrite X; auto. }
  rewrite E. apply fm_ext; intros; apply M.
Qed.

(** * reduceUselessRepetitions *)
Lemma useless_ways am t : bounds_ok t -> forall w, ways am (reduceUselessRepetitions t) w = ways am t w.
Proof.
  induction t as [k t IH|l IHl r IHr|l IHl r IHr|g t IH mn mx|a]; intros HB w; auto.
  - simpl in *. rewrite IHl, IHr; tauto.
  - simpl in *. rewrite IHl by tauto. apply fm_ext; intros; apply IHr; tauto.
  - assert (HB' : bounds_ok t) by (simpl in HB; tauto). specialize (IH HB').
    cbn [reduceUselessRepetitions].
    destruct ((mn =? 1)%N && (mx =? 1)%N) eqn:E.
    + apply andb_prop in E. destruct E as (E1 & E2). apply N.eqb_eq in E1, E2. subst. rewrite ways_once; auto.
    + destruct (negb g && (mn =? mx)%N) eqn:E2; [|apply rep_ext; auto].
      apply andb_prop in E2. destruct E2 as (E1 & E2). apply N.eqb_eq in E2. subst mx.
      destruct g; [discriminate|]. assert (mn < UNBOUNDED)%N by (simpl in HB; tauto).
      rewrite (rep_ext am t) by auto. rewrite !ways_exact; auto.
Qed.

(** * hasZeroLengthMatch *)
Lemma zero_length am t : hasZeroLengthMatch t = true -> forall w, In w (ways am t w).
Proof.
  induction t as [k t IH|l IHl r IHr|l IHl r IHr|g t IH mn mx|a]; simpl; intros H w; try discriminate.
  - apply orb_prop in H. rewrite in_app_iff. destruct H; auto.
  - apply andb_prop in H. apply in_flat_map. exists w; split; [apply IHl|apply IHr]; tauto.
  - apply in_flat_map. exists w. split; [|apply more_0_in].
    apply orb_prop in H. destruct H as [H|H].
    + apply N.eqb_eq in H. subst. simpl. auto.
    + induction (N.to_nat mn) as [|n IHn]; simpl; auto. apply in_flat_map. exists w; split; auto.
Qed.

Lemma zero_nonempty am t w : hasZeroLengthMatch t = true -> ways am t w <> [].
Proof. intros H E. pose proof (zero_length am t H w) as K. rewrite E in K. destruct K. Qed.

(** * Trailing non-greedy repetitions *)
Fixpoint ng_free (t : pnode) : Prop :=
  match t with
  | PLook _ t => ng_free t
  | PAlt l r | PCat l r => ng_free l /\ ng_free r
  | PRep g t _ _ => g = true /\ ng_free t
  | PAtom _ => True
  end.

(** no non-greedy repetition inside another repetition *)
Fixpoint calm (t : pnode) : Prop :=
  match t with
  | PLook _ t => calm t
  | PAlt l r | PCat l r => calm l /\ calm r
  | PRep _ t _ _ => ng_free t
  | PAtom _ => True
  end.

Lemma ng_free_calm t : ng_free t -> calm t.
Proof. induction t; simpl; tauto. Qed.

Lemma empty_fixed t : ng_free t -> reduceTrailingNongreedyThenEmpty t = (t, false).
Proof.
  induction t as [k t IH|l IHl r IHr|l IHl r IHr|g t IH mn mx|a]; simpl; intros H; auto.
  - rewrite IH; auto.
  - rewrite IHl, IHr; tauto.
  - rewrite IHr by tauto. destruct (hasZeroLengthMatch r); auto.
    assert (El : reduceTrailingNongreedyThenEmpty l = (l, false)) by (apply IHl; tauto). clear IHl IHr.
    destruct l as [| | |gl tl a b|]; try (rewrite El; reflexivity).
    destruct gl; [|simpl in H; intuition discriminate]. rewrite El; auto.
  - destruct H as (-> & H). rewrite IH; auto.
Qed.

Lemma greedy_fixed t : ng_free t -> reduceTrailingNongreedyThenGreedy t = (t, false).
Proof.
  induction t as [k t IH|l IHl r IHr|l IHl r IHr|g t IH mn mx|a]; simpl; intros H; auto.
  - rewrite IH; auto.
  - rewrite IHl, IHr; tauto.
  - rewrite IHr by tauto. destruct l as [| | |gl tl a b|]; simpl in *; auto.
    destruct gl; [|intuition discriminate]. auto.
  - rewrite IH; tauto.
Qed.

Lemma fst_let {A B C D} (p : A * B) (f : A -> C) (g : B -> D) : (let '(x, y) := p in (f x, g y)) = (f (fst p), g (snd p)).
Proof. destruct p; auto. Qed.

Lemma empty_hd am t : bounds_ok t -> calm t -> forall w,
  hd_error (ways am (fst (reduceTrailingNongreedyThenEmpty t)) w) = hd_error (ways am t w).
Proof.
  induction t as [k t IH|l IHl r IHr|l IHl r IHr|g t IH mn mx|a]; intros HB HC w; auto.
  - simpl. destruct (reduceTrailingNongreedyThenEmpty t); auto.
  - simpl in *. destruct (reduceTrailingNongreedyThenEmpty l) as [l' b1] eqn:El, (reduceTrailingNongreedyThenEmpty r) as [r' b2] eqn:Er.
    simpl in *. rewrite !hd_app, IHl, IHr; tauto.
  - cbn [reduceTrailingNongreedyThenEmpty].
    destruct (reduceTrailingNongreedyThenEmpty r) as [r' b2] eqn:Er.
    assert (Hr : forall w, hd_error (ways am r' w) = hd_error (ways am r w)) by (apply IHr; simpl in *; tauto).
    destruct (hasZeroLengthMatch r) eqn:Z.
    + assert (N1 : forall x, ways am r x <> []) by (intros; apply zero_nonempty; auto).
      assert (N2 : forall x, ways am r' x <> []) by (intros x E; apply (N1 x); apply (hd_nil _ _ (Hr x)); auto).
      assert (G : forall l', (forall w, hd_error (ways am l' w) = hd_error (ways am l w)) ->
                hd_error (ways am (PCat l' r') w) = hd_error (ways am (PCat l r) w)).
      { intros l' Hl'. simpl. rewrite !hd_fm_total by auto. rewrite Hl'. destruct (hd_error (ways am l w)); auto. }
      assert (D : forall p : pnode * bool, (forall w, hd_error (ways am (fst p) w) = hd_error (ways am l w)) ->
          hd_error (ways am (fst (let '(l', b1) := p in (PCat l' r', b1 || b2))) w) = hd_error (ways am (PCat l r) w)).
      { intros [l' b1] Hp. apply G. exact Hp. }
      apply D. destruct l as [| | |gl tl a b|]; try (apply IHl; simpl in *; tauto).
      destruct gl; [apply IHl; simpl in *; tauto|].
      intros v. cbn [fst]. rewrite ways_exact by (simpl in *; tauto).
      cbn [ways]. rewrite hd_fm_total by (intros; apply more_nonempty).
      destruct (hd_error (steps (ways am tl) (N.to_nat a) v)); auto. rewrite more_ng_hd; auto.
    + cbn [fst ways]. apply hd_fm; auto.
  - assert (HF : ng_free t) by exact HC.
    cbn [reduceTrailingNongreedyThenEmpty]. rewrite empty_fixed by auto. destruct g; auto.
    cbn [fst]. rewrite ways_exact by (simpl in *; tauto).
    cbn [ways]. rewrite hd_fm_total by (intros; apply more_nonempty).
    destruct (hd_error (steps (ways am t) (N.to_nat mn) w)); auto. rewrite more_ng_hd; auto.
Qed.

(** T{a,b}? followed by T{c,d} *)
Lemma ng_then_greedy am t a b c d w : (c <= d)%N -> (a + c < UNBOUNDED)%N -> (d = UNBOUNDED \/ (a + d < UNBOUNDED)%N) ->
  hd_error (ways am (PCat (PRep false t a b) (PRep true t c d)) w) =
  hd_error (ways am (PRep true t (a + c) (if (d =? UNBOUNDED)%N then UNBOUNDED else a + d)) w).
Proof.
  intros H1 H2 H3.
  set (F := ways am (PRep true t c d)).
  assert (R : ways am (PRep true t (a + c) (if (d =? UNBOUNDED)%N then UNBOUNDED else a + d)) w = flat_map F (steps (ways am t) (N.to_nat a) w)).
  { cbn [ways]. rewrite N2Nat.inj_add, steps_add, fm_fm. apply fm_ext; intros x _. unfold F; cbn [ways].
    apply fm_ext; intros y _. f_equal. unfold optional. destruct (d =? UNBOUNDED)%N eqn:E.
    - rewrite N.eqb_refl; auto.
    - destruct (a + d =? UNBOUNDED)%N eqn:E2; lia. }
  rewrite R. change (ways am (PCat (PRep false t a b) (PRep true t c d)) w) with (flat_map F (ways am (PRep false t a b) w)).
  cbn [ways]. rewrite fm_fm. apply hd_fm. intros x _.
  generalize (optional a b x); intros k. destruct (more (ways am t) false k x) as [|y rest] eqn:E.
  - exfalso; eapply more_nonempty; eauto.
  - pose proof (more_ng_hd (ways am t) k x) as Hh. rewrite E in Hh. injection Hh as ->.
    simpl. rewrite hd_app. destruct (F x) as [|z q] eqn:EF; auto.
    rewrite fm_nil; auto. intros y Hy.
    assert (Hm : In y (more (ways am t) false k x)) by (rewrite E; simpl; auto).
    apply more_reach in Hm. destruct Hm as (n & Hn).
    assert (S0 : steps (ways am t) (N.to_nat c) x = []).
    { destruct (steps (ways am t) (N.to_nat c) x) as [|u us] eqn:Es; auto. exfalso.
      unfold F in EF; cbn [ways] in EF. rewrite Es in EF. simpl in EF. apply app_eq_nil in EF.
      destruct EF as (EF & _). eapply more_nonempty; eauto. }
    unfold F; cbn [ways].
    destruct (steps (ways am t) (N.to_nat c) y) as [|u us] eqn:Es; auto. exfalso.
    assert (In u (steps (ways am t) (n + N.to_nat c) x)).
    { rewrite steps_add. apply in_flat_map. exists y; split; auto. rewrite Es; simpl; auto. }
    rewrite Nat.add_comm, steps_add, S0 in H. destruct H.
Qed.

Lemma weight_le mn mx : (mn <= mx)%N -> (mn <= weight mn mx)%N.
Proof. unfold weight. destruct (mx =? UNBOUNDED)%N; lia. Qed.
Lemma weight_ge mn mx : mx <> UNBOUNDED -> weight mn mx = mx.
Proof. unfold weight. destruct (mx =? UNBOUNDED)%N eqn:E; lia. Qed.

Lemma node_eqb_eq x y : node_eqb x y = true <-> x = y.
Proof. unfold node_eqb. destruct (pnode_eq_dec x y); split; auto; discriminate. Qed.

Lemma greedy_facts am t : bounds_ok t -> calm t -> (total t < UNBOUNDED)%N ->
  let t' := fst (reduceTrailingNongreedyThenGreedy t) in
  bounds_ok t' /\ (total t' <= total t)%N /\ calm t' /\ (forall w, hd_error (ways am t' w) = hd_error (ways am t w)).
Proof.
  unfold two32 in *. induction t as [k t IH|l IHl r IHr|l IHl r IHr|g t IH mn mx|a]; intros HB HC HT; cbn zeta in *.
  - simpl in *. specialize (IH HB HC HT). destruct (reduceTrailingNongreedyThenGreedy t) as [t' b]. simpl in *. tauto.
  - simpl in *. destruct (reduceTrailingNongreedyThenGreedy l) as [l' b1], (reduceTrailingNongreedyThenGreedy r) as [r' b2]; simpl in *.
    destruct IHl as (A1 & A2 & A3 & A4); try tauto; try lia. destruct IHr as (B1 & B2 & B3 & B4); try tauto; try lia.
    repeat split; try tauto; try lia. intros w; rewrite !hd_app, A4, B4; auto.
  - cbn [reduceTrailingNongreedyThenGreedy].
    destruct (reduceTrailingNongreedyThenGreedy r) as [r' b2].
    simpl in HB, HC, HT. destruct IHr as (B1 & B2 & B3 & B4); try tauto; try lia. simpl in B1, B2, B3, B4.
    assert (Base : bounds_ok (PCat l r') /\ (total (PCat l r') <= total (PCat l r))%N /\ calm (PCat l r') /\
             (forall w, hd_error (ways am (PCat l r') w) = hd_error (ways am (PCat l r) w))).
    { simpl. repeat split; try tauto; try lia. intros w; apply hd_fm; auto. }
    destruct l as [| | |gl t a b|]; try exact Base. destruct gl; [exact Base|].
    simpl in HB, HC, HT. destruct HB as ((Hab & Ha & Hb & HBt) & HBr). destruct HC as (HCt & HCr).
    rewrite (greedy_fixed t) by auto. cbn [fst].
    pose proof (weight_le a b Hab) as Wab. pose proof (total_pos t) as Tp.
    (* T{a,b}? followed by T{c,d} *)
    assert (Rep : forall c d, r' = PRep true t c d -> node_eqb t t = true ->
       let q := PRep true t (add_min a c) (if (d =? UNBOUNDED)%N then UNBOUNDED else ((a + d) mod two32)%N) in
       bounds_ok q /\ (total q <= total (PCat (PRep false t a b) r))%N /\ calm q /\
       (forall w, hd_error (ways am q w) = hd_error (ways am (PCat (PRep false t a b) r) w))).
    { intros c d -> _. cbn zeta. simpl in B1, B2, B3. destruct B1 as (Hcd & Hc & Hd & _).
      pose proof (weight_le c d Hcd) as Wcd.
      assert (S1 : add_min a c = (a + c)%N) by (unfold add_min, two32; apply N.mod_small; unfold UNBOUNDED in *; lia).
      rewrite S1.
      assert (S2 : (if (d =? UNBOUNDED)%N then UNBOUNDED else (a + d) mod two32)%N = (if (d =? UNBOUNDED)%N then UNBOUNDED else a + d)%N).
      { destruct (d =? UNBOUNDED)%N eqn:E; auto. apply N.mod_small. unfold two32.
        assert (weight c d = d) by (apply weight_ge; lia). unfold UNBOUNDED in *; lia. }
      rewrite S2. repeat split.
      - simpl. destruct (d =? UNBOUNDED)%N eqn:E.
        + unfold UNBOUNDED, two32 in *. lia.
        + assert (weight c d = d) by (apply weight_ge; lia). unfold UNBOUNDED, two32 in *. lia.
      - simpl. unfold UNBOUNDED, two32 in *. lia.
      - simpl. destruct (d =? UNBOUNDED)%N eqn:E.
        + unfold UNBOUNDED, two32 in *. lia.
        + assert (weight c d = d) by (apply weight_ge; lia). unfold UNBOUNDED, two32 in *. lia.
      - auto.
      - simpl. destruct (d =? UNBOUNDED)%N eqn:E.
        + unfold weight at 1. rewrite N.eqb_refl. lia.
        + assert (weight c d = d) by (apply weight_ge; lia). unfold weight at 1.
          destruct (a + d =? UNBOUNDED)%N; lia.
      - auto.
      - intros w. rewrite <- ng_then_greedy with (b := b).
        + cbn [ways]. apply hd_fm. intros x _. apply (B4 x).
        + auto.
        + unfold UNBOUNDED in *; lia.
        + destruct (N.eq_dec d UNBOUNDED); [auto|right]. assert (weight c d = d) by (apply weight_ge; lia). unfold UNBOUNDED in *; lia. }
    (* T{a,b}? followed by T *)
    assert (One : r' = t ->
       let q := PRep true t (add_min a 1) ((a + 1) mod two32)%N in
       bounds_ok q /\ (total q <= total (PCat (PRep false t a b) r))%N /\ calm q /\
       (forall w, hd_error (ways am q w) = hd_error (ways am (PCat (PRep false t a b) r) w))).
    { intros ->. cbn zeta.
      assert (S1 : add_min a 1 = (a + 1)%N) by (unfold add_min, two32; apply N.mod_small; unfold UNBOUNDED in *; lia).
      assert (S2 : ((a + 1) mod two32 = a + 1)%N) by (unfold two32; apply N.mod_small; unfold UNBOUNDED in *; lia).
      rewrite S1, S2. repeat split.
      - simpl; lia.
      - unfold UNBOUNDED in *; lia.
      - unfold UNBOUNDED, two32 in *; lia.
      - auto.
      - simpl. rewrite weight_ge by (unfold UNBOUNDED in *; lia). lia.
      - auto.
      - intros w. pose proof (ng_then_greedy am t a b 1 1 w) as G.
        change (1 =? UNBOUNDED)%N with false in G. cbn iota in G. rewrite <- G.
        + change (hd_error (flat_map (ways am (PRep true t 1 1)) (ways am (PRep false t a b) w)) =
                  hd_error (flat_map (ways am r) (ways am (PRep false t a b) w))).
          apply hd_fm. intros x _. rewrite ways_once. apply (B4 x).
        + lia.
        + unfold UNBOUNDED in *; lia.
        + unfold UNBOUNDED in *; lia. }
    destruct (node_eqb t r') eqn:E1.
    + apply node_eqb_eq in E1. destruct r' as [| | |gr t2 c d|]; try (apply One; auto; fail).
      destruct gr; [|apply One; auto]. destruct (node_eqb t t2) eqn:E2; [|apply One; auto].
      apply node_eqb_eq in E2. subst t2. apply Rep; auto. apply node_eqb_eq; auto.
    + destruct r' as [| | |gr t2 c d|]; try exact Base.
      destruct gr; [|exact Base]. destruct (node_eqb t t2) eqn:E2; [|exact Base].
      apply node_eqb_eq in E2. subst t2. apply Rep; auto. apply node_eqb_eq; auto.
  - simpl in HC. simpl. rewrite greedy_fixed by auto. simpl. simpl in HB. repeat split; try tauto; lia.
  - simpl. repeat split; auto; lia.
Qed.

(** * reduceTrailingNongreedyThenEmpty keeps the side conditions *)
Lemma empty_zero t : hasZeroLengthMatch (fst (reduceTrailingNongreedyThenEmpty t)) = hasZeroLengthMatch t.
Proof.
  induction t as [k t IH|l IHl r IHr|l IHl r IHr|g t IH mn mx|a]; auto.
  - simpl. destruct (reduceTrailingNongreedyThenEmpty t); auto.
  - simpl. destruct (reduceTrailingNongreedyThenEmpty l), (reduceTrailingNongreedyThenEmpty r); simpl in *. congruence.
  - cbn [reduceTrailingNongreedyThenEmpty]. destruct (reduceTrailingNongreedyThenEmpty r) as [r' b2]. simpl in IHr.
    assert (D : forall p : pnode * bool, hasZeroLengthMatch (fst p) = hasZeroLengthMatch l ->
      hasZeroLengthMatch (fst (let '(l', b1) := p in (PCat l' r', b1 || b2))) = hasZeroLengthMatch (PCat l r)).
    { intros [l' b1]; simpl. congruence. }
    apply D. destruct (hasZeroLengthMatch r); auto.
    destruct l as [| | |gl tl a b|]; auto. destruct gl; auto.
  - simpl. destruct g; [destruct (reduceTrailingNongreedyThenEmpty t)|]; simpl in *; congruence.
Qed.

Lemma empty_facts t : bounds_ok t -> calm t ->
  let t' := fst (reduceTrailingNongreedyThenEmpty t) in bounds_ok t' /\ (total t' <= total t)%N /\ calm t'.
Proof.
  induction t as [k t IH|l IHl r IHr|l IHl r IHr|g t IH mn mx|a]; intros HB HC; cbn zeta in *.
  - simpl in *. destruct (reduceTrailingNongreedyThenEmpty t); simpl in *; tauto.
  - simpl in *. destruct (reduceTrailingNongreedyThenEmpty l), (reduceTrailingNongreedyThenEmpty r); simpl in *.
    destruct IHl as (? & ? & ?); try tauto. destruct IHr as (? & ? & ?); try tauto. repeat split; try tauto; lia.
  - cbn [reduceTrailingNongreedyThenEmpty]. destruct (reduceTrailingNongreedyThenEmpty r) as [r' b2]. simpl in IHr.
    simpl in HB, HC. destruct IHr as (R1 & R2 & R3); try tauto.
    assert (D : forall p : pnode * bool, bounds_ok (fst p) /\ (total (fst p) <= total l)%N /\ calm (fst p) ->
      let t' := fst (let '(l', b1) := p in (PCat l' r', b1 || b2)) in
      bounds_ok t' /\ (total t' <= total (PCat l r))%N /\ calm t').
    { intros [l' b1] (A1 & A2 & A3). simpl in *. repeat split; try tauto; lia. }
    apply D. destruct (hasZeroLengthMatch r); [|simpl; repeat split; try tauto; lia].
    destruct l as [| | |gl tl a b|]; try (apply IHl; tauto). destruct gl; [apply IHl; tauto|].
    simpl in *. pose proof (weight_le a b). rewrite (weight_ge a a) by lia.
    repeat split; try tauto; unfold UNBOUNDED, two32 in *; lia.
  - simpl in HC. cbn [reduceTrailingNongreedyThenEmpty]. rewrite empty_fixed by auto.
    destruct g; simpl in *; [repeat split; try tauto; lia|].
    pose proof (weight_le mn mx). rewrite (weight_ge mn mn) by lia.
    repeat split; try tauto; unfold UNBOUNDED, two32 in *; lia.
  - simpl; repeat split; auto; lia.
Qed.

(** * Empty subtrees *)

(** no alternation whose first branch matches the empty text only *)
Fixpoint left_ok (t : pnode) : Prop :=
  match t with
  | PLook _ _ => True
  | PAlt l r => has_only_zero_length_match l = false /\ left_ok l /\ left_ok r
  | PCat l r => left_ok l /\ left_ok r
  | PRep _ t _ _ => left_ok t
  | PAtom _ => True
  end.

(** the same, except where nothing but empty matches can follow *)
Fixpoint inner_ok (t : pnode) : Prop :=
  match t with
  | PLook _ _ => True
  | PAlt l r => inner_ok l /\ inner_ok r
  | PCat l r => (if hasZeroLengthMatch r then inner_ok l else left_ok l) /\ inner_ok r
  | PRep _ t _ _ => left_ok t
  | PAtom _ => True
  end.

Lemma left_inner t : left_ok t -> inner_ok t.
Proof. induction t; simpl; try tauto. intros (A & B). destruct (hasZeroLengthMatch t2); tauto. Qed.

Lemma steps_empty f n w : (forall w, hd_error (f w) = Some w) -> hd_error (steps f n w) = Some w.
Proof.
  intros H. induction n; simpl; auto. specialize (H w). destruct (f w) as [|x l]; [discriminate|].
  injection H as ->. simpl. rewrite hd_app, IHn. auto.
Qed.

Lemma more_empty f g k w : (forall w, hd_error (f w) = Some w) -> hd_error (more f g k w) = Some w.
Proof.
  intros H. destruct k; simpl; auto. destruct g; auto.
  rewrite hd_app. specialize (H w). destruct (f w) as [|x l]; [discriminate|]. injection H as ->.
  simpl. rewrite Nat.ltb_irrefl. auto.
Qed.

Lemma only_zero_hd am t : has_only_zero_length_match t = true -> forall w, hd_error (ways am t w) = Some w.
Proof.
  induction t as [k t IH|l IHl r IHr|l IHl r IHr|g t IH mn mx|a]; simpl; intros H w; try discriminate.
  - rewrite hd_app, IHl; auto.
  - apply andb_prop in H. destruct H as (H1 & H2). specialize (IHl H1 w).
    destruct (ways am l w) as [|x q]; [discriminate|]. injection IHl as ->. simpl. rewrite hd_app, IHr; auto.
  - assert (K : (mn = 0%N /\ mx = 0%N) \/ (forall w, hd_error (ways am t w) = Some w)).
    { apply orb_prop in H. destruct H as [H|H]; auto. apply andb_prop in H. left; split; apply N.eqb_eq; tauto. }
    destruct K as [(-> & ->)|K]; auto.
    pose proof (steps_empty _ (N.to_nat mn) w K) as S0. destruct (steps (ways am t) (N.to_nat mn) w) as [|x q]; [discriminate|].
    injection S0 as ->. simpl. rewrite hd_app, more_empty; auto.
Qed.

Lemma only_zero_oeq am t : left_ok t -> has_only_zero_length_match t = true -> forall w, oeq (ways am t w) [w].
Proof.
  induction t as [k t IH|l IHl r IHr|l IHl r IHr|g t IH mn mx|a]; simpl; intros HL H w; try discriminate.
  - destruct HL as (E & _). congruence.
  - apply andb_prop in H. destruct H as (H1 & H2).
    apply oeq_trans with (flat_map (ways am r) [w]); [apply oeq_fm_l; apply IHl; tauto|].
    simpl. rewrite app_nil_r. apply IHr; tauto.
  - assert (K : (mn = 0%N /\ mx = 0%N) \/ (forall w, oeq (ways am t w) [w])).
    { apply orb_prop in H. destruct H as [H|H]; auto. apply andb_prop in H. left; split; apply N.eqb_eq; tauto. }
    destruct K as [(-> & ->)|K]; [simpl; apply oeq_refl|].
    assert (S0 : forall n w, oeq (steps (ways am t) n w) [w]).
    { induction n; simpl; intros v; [apply oeq_refl|].
      eapply oeq_trans; [apply oeq_fm_l, K|]. simpl. rewrite app_nil_r; auto. }
    eapply oeq_trans; [apply oeq_fm_l, S0|]. simpl. rewrite app_nil_r.
    destruct (optional mn mx w) as [|k]; simpl; [apply oeq_refl|].
    assert (G : oeq (flat_map (fun r => if length r <? length w then more (ways am t) g k r else [r]) (ways am t w)) [w]).
    { eapply oeq_trans; [apply oeq_fm_l, K|]. simpl. rewrite Nat.ltb_irrefl. simpl. apply oeq_refl. }
    destruct g.
    + eapply oeq_trans; [apply oeq_app; [exact G|apply oeq_refl]|]. apply (oeq_dup [] w [] []).
    + eapply oeq_trans; [apply (oeq_app [w] [w]); [apply oeq_refl|exact G]|]. apply (oeq_dup [] w [] []).
Qed.

Lemma only_zero_reduced t : left_ok t ->
  left_ok (reduceEmptySubtrees t) /\ has_only_zero_length_match (reduceEmptySubtrees t) = has_only_zero_length_match t.
Proof.
  induction t as [k t IH|l IHl r IHr|l IHl r IHr|g t IH mn mx|a]; intros HL.
  - simpl; auto.
  - simpl in HL. destruct HL as (HZ & HL & HR). destruct (IHl HL) as (A1 & A2). destruct (IHr HR) as (B1 & B2).
    cbn [reduceEmptySubtrees]. cbn [has_only_zero_length_match]. rewrite HZ.
    rewrite B2. destruct (has_only_zero_length_match r); simpl; rewrite ?A2, ?HZ; auto.
  - simpl in HL. destruct HL as (HL & HR). destruct (IHl HL) as (A1 & A2). destruct (IHr HR) as (B1 & B2).
    cbn [reduceEmptySubtrees]. rewrite A2, B2. cbn [has_only_zero_length_match].
    destruct (has_only_zero_length_match l) eqn:El, (has_only_zero_length_match r) eqn:Er; simpl; rewrite ?A2, ?B2; auto.
  - simpl in HL. destruct (IH HL) as (A1 & A2). cbn [reduceEmptySubtrees has_only_zero_length_match].
    destruct ((mn =? 0)%N && (mx =? 0)%N || has_only_zero_length_match t) eqn:E; simpl; auto.
    rewrite A2. auto.
  - simpl; auto.
Qed.

Lemma rep_oeq am t t' g mn mx w : (forall w, oeq (ways am t' w) (ways am t w)) -> oeq (ways am (PRep g t' mn mx) w) (ways am (PRep g t mn mx) w).
Proof. intros H. simpl. apply oeq_fm; [apply oeq_steps, H|]. intros x. apply oeq_more, H. Qed.

Lemma ways_opt am t w : ways am (PRep true t 0 1) w = ways am t w ++ [w].
Proof.
  cbn [ways]. unfold optional. change (1 =? UNBOUNDED)%N with false. cbn iota.
  change (N.to_nat (1 - 0)) with 1. simpl. rewrite app_nil_r. f_equal.
  rewrite <- (fm_single (ways am t w)) at 2. apply fm_ext. intros x _. destruct (length x <? length w); auto.
Qed.

Lemma dummy_ways am w : ways am dummy w = [w].
Proof. reflexivity. Qed.

Lemma reduce_empty_oeq am t : left_ok t -> forall w, oeq (ways am (reduceEmptySubtrees t) w) (ways am t w).
Proof.
  induction t as [k t IH|l IHl r IHr|l IHl r IHr|g t IH mn mx|a]; intros HL w; try (simpl; apply oeq_refl).
  - simpl in HL. destruct HL as (HZ & HL & HR). cbn [reduceEmptySubtrees has_only_zero_length_match]. rewrite HZ.
    destruct (only_zero_reduced _ HR) as (B1 & B2).
    destruct (has_only_zero_length_match (reduceEmptySubtrees r)) eqn:Er.
    + rewrite ways_opt. cbn [ways]. apply oeq_app; [apply IHl; auto|].
      apply oeq_sym, only_zero_oeq; auto.
    + cbn [ways]. apply oeq_app; auto.
  - destruct (has_only_zero_length_match (PCat l r)) eqn:Z.
    + cbn [reduceEmptySubtrees]. rewrite Z, dummy_ways. apply oeq_sym, only_zero_oeq; auto.
    + cbn [reduceEmptySubtrees]. rewrite Z. simpl in HL. destruct HL as (HL & HR).
      destruct (only_zero_reduced _ HL) as (A1 & A2). destruct (only_zero_reduced _ HR) as (B1 & B2).
      destruct (has_only_zero_length_match (reduceEmptySubtrees l)) eqn:El.
      * cbn [ways]. eapply oeq_trans; [apply IHr; auto|]. apply oeq_sym.
        eapply oeq_trans; [apply oeq_fm_l; apply only_zero_oeq; auto|]. simpl. rewrite app_nil_r. apply oeq_refl.
      * destruct (has_only_zero_length_match (reduceEmptySubtrees r)) eqn:Er.
        -- cbn [ways]. eapply oeq_trans; [apply IHl; auto|]. apply oeq_sym.
           eapply oeq_trans; [apply oeq_fm_r; intros x; apply only_zero_oeq; auto|]. rewrite fm_single. apply oeq_refl.
        -- cbn [ways]. apply oeq_fm; auto.
  - destruct (has_only_zero_length_match (PRep g t mn mx)) eqn:Z.
    + cbn [reduceEmptySubtrees]. rewrite Z, dummy_ways. apply oeq_sym, only_zero_oeq; auto.
    + cbn [reduceEmptySubtrees]. rewrite Z. apply rep_oeq. apply IH; auto.
Qed.

Lemma reduce_empty_hd am t : inner_ok t -> forall w, hd_error (ways am (reduceEmptySubtrees t) w) = hd_error (ways am t w).
Proof.
  induction t as [k t IH|l IHl r IHr|l IHl r IHr|g t IH mn mx|a]; intros HL w; auto.
  - destruct (has_only_zero_length_match (PAlt l r)) eqn:Z.
    + cbn [reduceEmptySubtrees]. rewrite Z, dummy_ways, only_zero_hd; auto.
    + cbn [reduceEmptySubtrees]. rewrite Z. simpl in HL. destruct HL as (HL & HR).
      destruct (has_only_zero_length_match (reduceEmptySubtrees r)) eqn:Er.
      * rewrite ways_opt. cbn [ways]. rewrite !hd_app, IHl by auto.
        assert (X : hd_error (ways am r w) = Some w) by (rewrite <- (IHr HR); apply only_zero_hd; auto).
        rewrite X. auto.
      * cbn [ways]. rewrite !hd_app, IHl, IHr; auto.
  - destruct (has_only_zero_length_match (PCat l r)) eqn:Z.
    + cbn [reduceEmptySubtrees]. rewrite Z, dummy_ways, only_zero_hd; auto.
    + cbn [reduceEmptySubtrees]. rewrite Z. simpl in HL. destruct HL as (HL & HR). specialize (IHr HR).
      assert (Hl : forall w, hd_error (ways am (reduceEmptySubtrees l) w) = hd_error (ways am l w)).
      { destruct (hasZeroLengthMatch r); [apply IHl; auto|]. intros v. apply oeq_hd, reduce_empty_oeq; auto. }
      destruct (has_only_zero_length_match (reduceEmptySubtrees l)) eqn:El.
      * cbn [ways]. rewrite IHr. destruct (hasZeroLengthMatch r) eqn:Zr.
        -- rewrite hd_fm_total by (intros; apply zero_nonempty; auto).
           rewrite <- Hl. rewrite (only_zero_hd am (reduceEmptySubtrees l)) by auto. auto.
        -- destruct (only_zero_reduced _ HL) as (A1 & A2). symmetry.
           transitivity (hd_error (flat_map (ways am r) [w])).
           ++ apply oeq_hd, oeq_fm_l, only_zero_oeq; auto. congruence.
           ++ simpl. rewrite app_nil_r; auto.
      * destruct (has_only_zero_length_match (reduceEmptySubtrees r)) eqn:Er.
        -- assert (T : forall x, hd_error (ways am r x) = Some x) by (intros x; rewrite <- IHr; apply only_zero_hd; auto).
           cbn [ways]. rewrite hd_fm_total by (intros x E; specialize (T x); rewrite E in T; discriminate).
           rewrite Hl. destruct (hd_error (ways am l w)); auto.
        -- cbn [ways]. destruct (hasZeroLengthMatch r) eqn:Zr.
           ++ assert (N1 : forall x, ways am r x <> []) by (intros; apply zero_nonempty; auto).
              rewrite !hd_fm_total; auto.
              ** rewrite Hl. destruct (hd_error (ways am l w)); auto.
              ** intros x E. apply (N1 x). apply (hd_nil _ _ (IHr x)); auto.
           ++ transitivity (hd_error (flat_map (ways am (reduceEmptySubtrees r)) (ways am l w))).
              ** apply oeq_hd, oeq_fm_l, reduce_empty_oeq; auto.
              ** apply hd_fm; auto.
  - simpl in HL. apply oeq_hd, reduce_empty_oeq; auto.
Qed.


(** the conditions survive the earlier rewrites *)
Lemma empty_inner t : calm t -> left_ok t -> inner_ok (fst (reduceTrailingNongreedyThenEmpty t)).
Proof.
  induction t as [k t IH|l IHl r IHr|l IHl r IHr|g t IH mn mx|a]; intros HC HL; auto.
  - simpl in *. destruct (reduceTrailingNongreedyThenEmpty t). simpl; auto.
  - simpl in *. destruct (reduceTrailingNongreedyThenEmpty l), (reduceTrailingNongreedyThenEmpty r). simpl in *; tauto.
  - cbn [reduceTrailingNongreedyThenEmpty]. pose proof (empty_zero r) as Z.
    destruct (reduceTrailingNongreedyThenEmpty r) as [r' b2]. simpl in IHr, Z, HC, HL.
    assert (D : forall p : pnode * bool, (if hasZeroLengthMatch r then inner_ok (fst p) else left_ok (fst p)) ->
      inner_ok (fst (let '(l', b1) := p in (PCat l' r', b1 || b2)))).
    { intros [l' b1] H. simpl in *. rewrite Z. tauto. }
    apply D. destruct (hasZeroLengthMatch r); [|simpl; tauto].
    destruct l as [| | |gl tl a b|]; try (apply IHl; tauto). destruct gl; [apply IHl; tauto|]. simpl in *; tauto.
  - simpl in HC. cbn [reduceTrailingNongreedyThenEmpty]. rewrite empty_fixed by auto. destruct g; simpl in *; auto.
Qed.

Lemma greedy_zero t : bounds_ok t -> calm t -> (total t < UNBOUNDED)%N ->
  hasZeroLengthMatch (fst (reduceTrailingNongreedyThenGreedy t)) = hasZeroLengthMatch t.
Proof.
  induction t as [k t IH|l IHl r IHr|l IHl r IHr|g t IH mn mx|a]; intros HB HC HT; auto.
  - simpl. destruct (reduceTrailingNongreedyThenGreedy t); auto.
  - simpl in *. destruct (reduceTrailingNongreedyThenGreedy l), (reduceTrailingNongreedyThenGreedy r); simpl in *.
    rewrite IHl, IHr; try tauto; lia.
  - cbn [reduceTrailingNongreedyThenGreedy]. simpl in HB, HC, HT.
    destruct (greedy_facts (fun _ _ => []) r) as (F1 & F2 & _); try tauto; try lia.
    destruct (reduceTrailingNongreedyThenGreedy r) as [r' b2]. simpl in IHr, F1, F2.
    assert (Hr : hasZeroLengthMatch r' = hasZeroLengthMatch r) by (apply IHr; try tauto; lia). clear IHr IHl.
    assert (Base : hasZeroLengthMatch (PCat l r') = hasZeroLengthMatch (PCat l r)) by (simpl; congruence).
    destruct l as [| | |gl t a b|]; try exact Base. destruct gl; [exact Base|].
    simpl in HB, HC, HT. rewrite (greedy_fixed t) by tauto. cbn [fst].
    pose proof (weight_le a b). pose proof (total_pos t).
    assert (Rep : forall c d x, r' = PRep true t c d -> hasZeroLengthMatch (PRep true t (add_min a c) x) = hasZeroLengthMatch (PCat (PRep false t a b) r)).
    { intros c d x ->. simpl in *. rewrite <- Hr. pose proof (weight_le c d).
      unfold add_min. rewrite N.mod_small by (unfold UNBOUNDED, two32 in *; lia).
      destruct (hasZeroLengthMatch t); rewrite ?orb_true_r, ?orb_false_r; auto.
      destruct (a + c =? 0)%N eqn:E1, (a =? 0)%N eqn:E2, (c =? 0)%N eqn:E3; auto; lia. }
    assert (One : forall x, r' = t -> hasZeroLengthMatch (PRep true t (add_min a 1) x) = hasZeroLengthMatch (PCat (PRep false t a b) r)).
    { intros x ->. simpl in *. rewrite <- Hr.
      unfold add_min. rewrite N.mod_small by (unfold UNBOUNDED, two32 in *; lia).
      replace (a + 1 =? 0)%N with false by (symmetry; apply N.eqb_neq; lia).
      destruct (hasZeroLengthMatch t); rewrite ?orb_true_r, ?orb_false_r, ?andb_false_r; auto. }
    destruct (node_eqb t r') eqn:E1.
    + apply node_eqb_eq in E1. destruct r' as [| | |gr t2 c d|]; try (apply One; auto; fail).
      destruct gr; [|apply One; auto]. destruct (node_eqb t t2) eqn:E2; [|apply One; auto].
      apply node_eqb_eq in E2. subst t2. eapply Rep; eauto.
    + destruct r' as [| | |gr t2 c d|]; try exact Base.
      destruct gr; [|exact Base]. destruct (node_eqb t t2) eqn:E2; [|exact Base].
      apply node_eqb_eq in E2. subst t2. eapply Rep; eauto.
  - simpl in *. rewrite greedy_fixed by auto. auto.
Qed.

Lemma greedy_inner t : bounds_ok t -> calm t -> (total t < UNBOUNDED)%N -> inner_ok t ->
  inner_ok (fst (reduceTrailingNongreedyThenGreedy t)).
Proof.
  induction t as [k t IH|l IHl r IHr|l IHl r IHr|g t IH mn mx|a]; intros HB HC HT HI; auto.
  - simpl. destruct (reduceTrailingNongreedyThenGreedy t). simpl; auto.
  - simpl in *. destruct (reduceTrailingNongreedyThenGreedy l), (reduceTrailingNongreedyThenGreedy r); simpl in *.
    split; [apply IHl|apply IHr]; try tauto; lia.
  - cbn [reduceTrailingNongreedyThenGreedy]. simpl in HB, HC, HT, HI.
    assert (Hz : hasZeroLengthMatch (fst (reduceTrailingNongreedyThenGreedy r)) = hasZeroLengthMatch r) by (apply greedy_zero; try tauto; lia).
    destruct (reduceTrailingNongreedyThenGreedy r) as [r' b2]. simpl in IHr, Hz.
    assert (Hr : inner_ok r') by (apply IHr; try tauto; lia). clear IHr IHl.
    assert (Base : inner_ok (PCat l r')) by (simpl; rewrite Hz; tauto).
    destruct l as [| | |gl t a b|]; try exact Base. destruct gl; [exact Base|].
    simpl in HB, HC, HT. rewrite (greedy_fixed t) by tauto. cbn [fst].
    assert (Ht : left_ok t) by (destruct HI as (H & _); destruct (hasZeroLengthMatch r); simpl in H; auto).
    destruct (node_eqb t r') eqn:E1;
      (destruct r' as [| | |gr t2 c d|]; try exact Base; try exact Ht);
      (destruct gr; try exact Base; try exact Ht); destruct (node_eqb t t2); try exact Base; exact Ht.
  - simpl in *. rewrite greedy_fixed by auto. auto.
Qed.


(** * Conditions on a whole tree that the first two rewrites keep *)

(** no branch of a (possibly nested) alternation matches the empty text only *)
Fixpoint solid (t : pnode) : Prop :=
  match t with
  | PAlt l r => solid l /\ solid r
  | _ => has_only_zero_length_match t = false
  end.

(** a branch that matches the empty text only can only be the last one of its alternation *)
Fixpoint empty_branch_last (t : pnode) : Prop :=
  match t with
  | PLook _ _ => True
  | PAlt l r => solid l /\ empty_branch_last l /\ empty_branch_last r
  | PCat l r => empty_branch_last l /\ empty_branch_last r
  | PRep _ t _ _ => empty_branch_last t
  | PAtom _ => True
  end.

Lemma solid_oz t : solid t -> has_only_zero_length_match t = false.
Proof. induction t; simpl; tauto. Qed.

Lemma last_left t : empty_branch_last t -> left_ok t.
Proof. induction t; simpl; try tauto. intros (A & B & C). apply solid_oz in A. tauto. Qed.

(** every repetition has equal bounds or repeats a single leaf *)
Fixpoint plain_reps (t : pnode) : Prop :=
  match t with
  | PLook _ _ => True
  | PAlt l r | PCat l r => plain_reps l /\ plain_reps r
  | PRep _ t mn mx => plain_reps t /\ (mn = mx \/ exists a, t = PAtom a)
  | PAtom _ => True
  end.

Record tree_ok (t : pnode) : Prop := {
  tk_bounds : bounds_ok t;
  tk_total : (total t < UNBOUNDED)%N;
  tk_calm : calm t;
  tk_last : empty_branch_last t }.

Lemma ra_oz t : has_only_zero_length_match (fst (makeBinopsRightAssociative t)) = has_only_zero_length_match t.
Proof.
  induction t as [k t IH|l IHl r IHr|l IHl r IHr|g t IH mn mx|a]; simpl; auto.
  - destruct (makeBinopsRightAssociative t); auto.
  - destruct (makeBinopsRightAssociative l) as [l' b1], (makeBinopsRightAssociative r) as [r' b2]; simpl in *.
    rewrite <- IHl. destruct l'; auto.
  - destruct (makeBinopsRightAssociative l) as [l' b1], (makeBinopsRightAssociative r) as [r' b2]; simpl in *.
    rewrite <- IHl, <- IHr. destruct l'; auto. simpl. rewrite andb_assoc; auto.
  - destruct (makeBinopsRightAssociative t); simpl in *. congruence.
Qed.

Lemma ra_solid t : solid t -> solid (fst (makeBinopsRightAssociative t)).
Proof.
  induction t as [k t IH|l IHl r IHr|l IHl r IHr|g t IH mn mx|a]; intros H; auto.
  - simpl. destruct (makeBinopsRightAssociative t); auto.
  - simpl in *. destruct (makeBinopsRightAssociative l) as [l' b1], (makeBinopsRightAssociative r) as [r' b2]; simpl in *.
    destruct l'; simpl in *; tauto.
  - pose proof (ra_oz (PCat l r)) as E. simpl in H. cbn [makeBinopsRightAssociative] in *.
    destruct (makeBinopsRightAssociative l) as [l' b1], (makeBinopsRightAssociative r) as [r' b2].
    change (has_only_zero_length_match (PCat l r)) with (has_only_zero_length_match l && has_only_zero_length_match r) in E.
    rewrite H in E. destruct l'; exact E.
  - pose proof (ra_oz (PRep g t mn mx)) as E. cbn [makeBinopsRightAssociative] in *.
    destruct (makeBinopsRightAssociative t). simpl in H, E |- *. congruence.
Qed.

Lemma ra_facts t : let t' := fst (makeBinopsRightAssociative t) in
  (bounds_ok t -> bounds_ok t') /\ total t' = total t /\ (ng_free t -> ng_free t') /\ (calm t -> calm t') /\
  (empty_branch_last t -> empty_branch_last t') /\ (plain_reps t -> plain_reps t') /\ has_look t' = has_look t.
Proof.
  induction t as [k t IH|l IHl r IHr|l IHl r IHr|g t IH mn mx|a]; cbn zeta in *.
  - simpl. destruct (makeBinopsRightAssociative t); simpl in *; tauto.
  - pose proof (ra_solid l) as SL. cbn [makeBinopsRightAssociative].
    destruct (makeBinopsRightAssociative l) as [l' b1], (makeBinopsRightAssociative r) as [r' b2]; simpl in SL, IHl, IHr.
    destruct IHl as (A1 & A2 & A3 & A4 & A5 & A6 & A7). destruct IHr as (B1 & B2 & B3 & B4 & B5 & B6 & B7).
    assert (Base : let t' := PAlt l' r' in
     (bounds_ok (PAlt l r) -> bounds_ok t') /\ total t' = total (PAlt l r) /\ (ng_free (PAlt l r) -> ng_free t') /\ (calm (PAlt l r) -> calm t') /\
     (empty_branch_last (PAlt l r) -> empty_branch_last t') /\ (plain_reps (PAlt l r) -> plain_reps t') /\ has_look t' = has_look (PAlt l r)).
    { simpl. rewrite A2, B2, A7, B7. tauto. }
    cbn zeta in Base. destruct l' as [| e f | | |]; try exact Base. simpl in *.
    rewrite <- A2, <- B2, <- A7, <- B7 in *. rewrite N.add_assoc, orb_assoc. tauto.
  - cbn [makeBinopsRightAssociative].
    destruct (makeBinopsRightAssociative l) as [l' b1], (makeBinopsRightAssociative r) as [r' b2]; simpl in IHl, IHr.
    destruct IHl as (A1 & A2 & A3 & A4 & A5 & A6 & A7). destruct IHr as (B1 & B2 & B3 & B4 & B5 & B6 & B7).
    assert (Base : let t' := PCat l' r' in
     (bounds_ok (PCat l r) -> bounds_ok t') /\ total t' = total (PCat l r) /\ (ng_free (PCat l r) -> ng_free t') /\ (calm (PCat l r) -> calm t') /\
     (empty_branch_last (PCat l r) -> empty_branch_last t') /\ (plain_reps (PCat l r) -> plain_reps t') /\ has_look t' = has_look (PCat l r)).
    { simpl. rewrite A2, B2, A7, B7. tauto. }
    cbn zeta in Base. destruct l' as [| | e f | |]; try exact Base. simpl in *.
    rewrite <- A2, <- B2, <- A7, <- B7 in *. rewrite N.add_assoc, orb_assoc. tauto.
  - simpl in *.
    assert (X : forall a, t = PAtom a -> fst (makeBinopsRightAssociative t) = PAtom a) by (intros a ->; auto).
    destruct (makeBinopsRightAssociative t) as [t' b]; simpl in *.
    destruct IH as (A1 & A2 & A3 & A4 & A5 & A6 & A7). rewrite A2, A7.
    repeat split; try tauto. destruct H as (_ & [H|(a & H)]); auto. right. exists a. apply X; auto.
  - simpl. tauto.
Qed.

(** * combineConsecutiveRepetitions *)
Lemma combinable_eq x y : combinable x y = true -> exists g t a b, x = PRep g t a b /\ y = PRep g t a b.
Proof.
  destruct x as [| | |g t a b|]; try discriminate. destruct y as [| | |g' t' a' b'|]; try discriminate. simpl.
  intros H. apply andb_prop in H. destruct H as (_ & H). apply node_eqb_eq in H. rewrite <- H. eauto 8.
Qed.

Lemma add_min_ok a c : (a + c < UNBOUNDED)%N -> add_min a c = (a + c)%N.
Proof. unfold add_min, UNBOUNDED. intros H. apply N.mod_small. unfold two32; lia. Qed.

Lemma add_max_ok b : b = UNBOUNDED \/ (b + b < UNBOUNDED)%N -> add_max b b = (if (b =? UNBOUNDED)%N then UNBOUNDED else b + b)%N.
Proof.
  unfold add_max. intros H. destruct (b =? UNBOUNDED)%N eqn:E; auto. simpl. apply N.mod_small. unfold two32, UNBOUNDED in *. lia.
Qed.

Lemma join_lang A g t a b w : (a <= b)%N -> (a + a < UNBOUNDED)%N -> b = UNBOUNDED \/ (b + b < UNBOUNDED)%N ->
  lang A (PRep g t (add_min a a) (add_max b b)) w <-> lang A (PCat (PRep g t a b) (PRep g t a b)) w.
Proof.
  intros H1 H2 H3. rewrite add_min_ok, add_max_ok by auto. simpl. unfold within. split.
  - intros (n & (N1 & N2) & Hp).
    assert (exists n1 n2, n = n1 + n2 /\ (a <= N.of_nat n1)%N /\ (a <= N.of_nat n2)%N /\
      (b = UNBOUNDED \/ (N.of_nat n1 <= b)%N) /\ (b = UNBOUNDED \/ (N.of_nat n2 <= b)%N)) as (n1 & n2 & -> & Q1 & Q2 & Q3 & Q4).
    { destruct (b =? UNBOUNDED)%N eqn:E.
      - exists (N.to_nat a), (n - N.to_nat a). lia.
      - assert (N.of_nat n <= b + b)%N by lia.
        exists (N.to_nat (N.max a (N.of_nat n - b))), (n - N.to_nat (N.max a (N.of_nat n - b))). lia. }
    apply pow_split in Hp. destruct Hp as (u & v & -> & Hu & Hv). exists u, v. repeat split; eauto.
  - intros (u & v & -> & (n1 & (Q1 & Q3) & Hu) & (n2 & (Q2 & Q4) & Hv)).
    exists (n1 + n2). split; [|apply pow_app; auto].
    destruct (b =? UNBOUNDED)%N eqn:E; lia.
Qed.

Lemma pow_lang_ext A t t' n w : (forall w, lang A t w <-> lang A t' w) -> pow (lang A t) n w <-> pow (lang A t') n w.
Proof. apply pow_ext. Qed.

Definition same_lang t t' := forall A w, lang A t' w <-> lang A t w.

Lemma cat_lang l l' r r' : same_lang l l' -> same_lang r r' -> same_lang (PCat l r) (PCat l' r').
Proof.
  intros H K A w; simpl. split; intros (u & v & E & X & Y); exists u, v; (split; [auto|]); split;
    try (apply H; exact X); apply K; exact Y.
Qed.

Lemma combine_facts t : bounds_ok t -> (total t < UNBOUNDED)%N -> let t' := fst (combineConsecutiveRepetitions t) in
  bounds_ok t' /\ (total t' <= total t)%N /\ (ng_free t -> ng_free t') /\ (calm t -> calm t') /\
  (solid t -> solid t') /\ (empty_branch_last t -> empty_branch_last t') /\
  has_only_zero_length_match t' = has_only_zero_length_match t /\
  same_lang t t'.
Proof.
  induction t as [k t IH|l IHl r IHr|l IHl r IHr|g t IH mn mx|a]; intros HB HT; cbn zeta in *.
  - simpl. repeat split; auto; lia.
  - simpl in HB, HT. cbn [combineConsecutiveRepetitions].
    destruct (combineConsecutiveRepetitions l) as [l' b1], (combineConsecutiveRepetitions r) as [r' b2]; simpl in IHl, IHr.
    destruct IHl as (A1 & A2 & A3 & A4 & A5 & A6 & A7 & A8); try tauto; try lia.
    destruct IHr as (B1 & B2 & B3 & B4 & B5 & B6 & B7 & B8); try tauto; try lia.
    cbn [fst]. simpl. repeat match goal with |- _ /\ _ => split end; try tauto; try lia.
    intros A w. simpl. rewrite (A8 A w), (B8 A w). tauto.
  - simpl in HB, HT. cbn [combineConsecutiveRepetitions].
    destruct (combineConsecutiveRepetitions l) as [l' b1], (combineConsecutiveRepetitions r) as [r' b2]; simpl in IHl, IHr.
    destruct IHl as (A1 & A2 & A3 & A4 & A5 & A6 & A7 & A8); try tauto; try lia.
    destruct IHr as (B1 & B2 & B3 & B4 & B5 & B6 & B7 & B8); try tauto; try lia.
    assert (Base : let t' := PCat l' r' in
      bounds_ok t' /\ (total t' <= total (PCat l r))%N /\ (ng_free (PCat l r) -> ng_free t') /\ (calm (PCat l r) -> calm t') /\
      (solid (PCat l r) -> solid t') /\ (empty_branch_last (PCat l r) -> empty_branch_last t') /\
      has_only_zero_length_match t' = has_only_zero_length_match (PCat l r) /\ same_lang (PCat l r) t').
    { cbn zeta. simpl. rewrite A7, B7. repeat match goal with |- _ /\ _ => split end; try tauto; try lia.
      apply cat_lang; auto. }
    cbn zeta in Base. destruct (combinable l' r') eqn:E1.
    + apply combinable_eq in E1. destruct E1 as (g & t & a & b & -> & ->). cbn [fst join_rep].
      simpl in A1, A2, B2. destruct A1 as (Q1 & Q2 & Q3 & Q4). pose proof (weight_le a b Q1) as W.
      assert (Q5 : (a + a < UNBOUNDED)%N) by lia.
      assert (Q6 : b = UNBOUNDED \/ (b + b < UNBOUNDED)%N).
      { destruct (N.eq_dec b UNBOUNDED); auto. right. rewrite weight_ge in A2, B2 by auto. lia. }
      destruct Base as (C1 & C2 & C3 & C4 & C5 & C6 & C7 & C8).
      assert (Z : (add_min a a =? 0)%N && (add_max b b =? 0)%N = (a =? 0)%N && (b =? 0)%N).
      { rewrite add_min_ok, add_max_ok by auto. destruct (b =? UNBOUNDED)%N eqn:E.
        - apply N.eqb_eq in E. subst b. change (UNBOUNDED =? 0)%N with false. rewrite !andb_false_r; auto.
        - destruct (a =? 0)%N eqn:Ea, (b =? 0)%N eqn:Eb, (a + a =? 0)%N eqn:Eaa, (b + b =? 0)%N eqn:Ebb; auto; lia. }
      repeat match goal with |- _ /\ _ => split end.
      * simpl. rewrite add_min_ok, add_max_ok by auto. unfold UNBOUNDED, two32 in *. destruct (b =? 4294967295)%N eqn:E; repeat split; auto; lia.
      * simpl. rewrite add_min_ok, add_max_ok by auto. unfold weight in *. destruct (b =? UNBOUNDED)%N eqn:E.
        -- rewrite N.eqb_refl. lia.
        -- destruct (b + b =? UNBOUNDED)%N; lia.
      * intros X. apply C3 in X. simpl in X |- *. tauto.
      * intros X. apply C4 in X. simpl in X |- *. tauto.
      * intros X. apply C5 in X. simpl in X |- *. rewrite Z. destruct ((a =? 0)%N && (b =? 0)%N || has_only_zero_length_match t); auto.
      * intros X. apply C6 in X. simpl in X |- *. tauto.
      * rewrite <- C7. simpl. rewrite Z. destruct ((a =? 0)%N && (b =? 0)%N || has_only_zero_length_match t); auto.
      * intros A w. rewrite <- (C8 A w). apply join_lang; auto.
    + destruct r' as [| |rl rr| |]; try exact Base.
      destruct (combinable l' rl) eqn:E2; [|exact Base]. clear E1.
      apply combinable_eq in E2. destruct E2 as (g & t & a & b & -> & ->). cbn [fst join_rep].
      simpl in A1, A2, B1, B2. destruct A1 as (Q1 & Q2 & Q3 & Q4). pose proof (weight_le a b Q1) as W.
      pose proof (total_pos rr) as Tr.
      assert (Q5 : (a + a < UNBOUNDED)%N) by lia.
      assert (Q6 : b = UNBOUNDED \/ (b + b < UNBOUNDED)%N).
      { destruct (N.eq_dec b UNBOUNDED); auto. right. rewrite weight_ge in A2, B2 by auto. lia. }
      destruct Base as (C1 & C2 & C3 & C4 & C5 & C6 & C7 & C8).
      assert (Z : (add_min a a =? 0)%N && (add_max b b =? 0)%N = (a =? 0)%N && (b =? 0)%N).
      { rewrite add_min_ok, add_max_ok by auto. destruct (b =? UNBOUNDED)%N eqn:E.
        - apply N.eqb_eq in E. subst b. change (UNBOUNDED =? 0)%N with false. rewrite !andb_false_r; auto.
        - destruct (a =? 0)%N eqn:Ea, (b =? 0)%N eqn:Eb, (a + a =? 0)%N eqn:Eaa, (b + b =? 0)%N eqn:Ebb; auto; lia. }
      repeat match goal with |- _ /\ _ => split end.
      * simpl. rewrite add_min_ok, add_max_ok by auto. unfold UNBOUNDED, two32 in *. destruct (b =? 4294967295)%N eqn:E; repeat split; try tauto; lia.
      * simpl. rewrite add_min_ok, add_max_ok by auto. unfold weight in *. destruct (b =? UNBOUNDED)%N eqn:E.
        -- rewrite N.eqb_refl. lia.
        -- destruct (b + b =? UNBOUNDED)%N; lia.
      * intros X. apply C3 in X. simpl in X |- *. tauto.
      * intros X. apply C4 in X. simpl in X |- *. tauto.
      * intros X. apply C5 in X. simpl in X |- *. rewrite Z. destruct ((a =? 0)%N && (b =? 0)%N || has_only_zero_length_match t); auto.
      * intros X. apply C6 in X. simpl in X |- *. tauto.
      * rewrite <- C7. simpl. rewrite Z. destruct ((a =? 0)%N && (b =? 0)%N || has_only_zero_length_match t); auto.
      * intros A w. rewrite <- (C8 A w).
        pose proof (fun w => join_lang A g t a b w Q1 Q5 Q6) as J.
        split.
        -- intros (u & v & -> & X & Y). apply J in X. destruct X as (u1 & u2 & -> & X1 & X2).
           exists u1, (u2 ++ v). rewrite app_assoc. repeat split; auto. exists u2, v; auto.
        -- intros (u & v & -> & X & v1 & v2 & -> & Y1 & Y2). exists (u ++ v1), v2. rewrite app_assoc.
           repeat split; auto. apply J. exists u, v1; auto.
  - simpl in HB, HT. cbn [combineConsecutiveRepetitions]. destruct (combineConsecutiveRepetitions t) as [t' b]. simpl in IH.
    destruct IH as (A1 & A2 & A3 & A4 & A5 & A6 & A7 & A8); try tauto; try lia.
    cbn [fst]. simpl. rewrite A7. repeat match goal with |- _ /\ _ => split end; try tauto; try lia.
    intros A w. simpl. split; intros (n & H1 & H2); exists n; (split; [auto|]);
      (eapply pow_ext; [|exact H2]); intros x; simpl; specialize (A8 A x); tauto.
  - simpl. repeat split; auto; lia.
Qed.

(** * Combining repetitions of one leaf *)
Definition single_step (f : word -> list word) := forall w, f w = [] \/ exists r, f w = [r] /\ length r < length w.

Lemma more_S f g k w : single_step f -> more f g (S k) w = if g then flat_map (more f g k) (f w) ++ [w] else w :: flat_map (more f g k) (f w).
Proof.
  intros H. simpl. assert (E : flat_map (fun r => if length r <? length w then more f g k r else [r]) (f w) = flat_map (more f g k) (f w)).
  { apply fm_ext. intros x Hx. destruct (H w) as [E|(r & E & L)]; rewrite E in Hx; [destruct Hx|]. destruct Hx as [<-|[]].
    apply Nat.ltb_lt in L. rewrite L; auto. }
  rewrite E. auto.
Qed.

Lemma more_mono f g k m : k <= m -> forall w, single_step f -> incl (more f g k w) (more f g m w).
Proof.
  revert m; induction k as [|k IH]; intros m Hm w H.
  - simpl. intros x [->|[]]. apply more_0_in.
  - destruct m as [|m]; [lia|]. rewrite !more_S by auto. destruct (H w) as [E|(r & E & L)]; rewrite E; simpl.
    + apply incl_refl.
    + rewrite !app_nil_r. assert (incl (more f g k r) (more f g m r)) by (apply IH; auto; lia).
      destruct g; [apply incl_app; [apply incl_appl; auto|apply incl_appr, incl_refl]|].
      intros x [->|Hx]; [simpl; auto|right; auto].
Qed.

(** enough rounds *)
Lemma more_sat f g : single_step f -> forall j k w, length w <= j -> length w <= k -> more f g j w = more f g k w.
Proof.
  intros H. induction j as [|j IH]; intros k w Hj Hk.
  - destruct w; [|simpl in Hj; lia]. destruct k; auto. rewrite more_S by auto.
    destruct (H []) as [E|(r & E & L)]; [rewrite E; destruct g; auto|simpl in L; lia].
  - destruct k as [|k].
    + destruct w; [|simpl in Hk; lia]. rewrite more_S by auto.
      destruct (H []) as [E|(r & E & L)]; [rewrite E; destruct g; auto|simpl in L; lia].
    + rewrite !more_S by auto. destruct (H w) as [E|(r & E & L)]; rewrite E; simpl; auto.
      rewrite (IH k r) by lia. auto.
Qed.

Lemma steps_single f n w : single_step f -> steps f n w = [] \/ exists r, steps f n w = [r] /\ length r <= length w.
Proof.
  intros H. revert w; induction n; simpl; intros w; [right; eauto|].
  destruct (H w) as [E|(r & E & L)]; rewrite E; simpl; auto. rewrite app_nil_r.
  destruct (IHn r) as [E2|(q & E2 & L2)]; rewrite E2; [auto|right]. exists q; split; auto; lia.
Qed.

Lemma steps_comm f n w : flat_map (steps f n) (f w) = flat_map f (steps f n w).
Proof.
  change (flat_map (steps f n) (f w)) with (steps f (1 + n) w). rewrite Nat.add_comm, steps_add.
  apply fm_ext. intros x _. simpl. rewrite fm_single; auto.
Qed.

Lemma more_twice f g a k m w : single_step f ->
  oeq (flat_map (fun y => flat_map (more f g m) (steps f a y)) (more f g k w)) (flat_map (more f g (k + m)) (steps f a w)).
Proof.
  intros H. revert w; induction k as [|k IH]; intros w.
  - simpl. rewrite app_nil_r. apply oeq_refl.
  - rewrite more_S by auto. change (S k + m) with (S (k + m)).
    assert (X : oeq (flat_map (fun y => flat_map (more f g m) (steps f a y)) (flat_map (more f g k) (f w)))
                    (flat_map (more f g (k + m)) (flat_map f (steps f a w)))).
    { rewrite fm_fm, <- steps_comm, fm_fm. apply oeq_fm_r. intros x. apply IH. }
    destruct (steps_single f a w H) as [E|(z & E & _)].
    + destruct g.
      * rewrite flat_map_app. simpl. rewrite E in *. simpl in *. rewrite !app_nil_r. exact X.
      * simpl. rewrite E in *. simpl in *. exact X.
    + destruct g.
      * rewrite flat_map_app. simpl (flat_map _ [w]). rewrite E in *. cbn [flat_map] in *. rewrite !app_nil_r in *.
        rewrite more_S by auto. eapply oeq_trans; [apply oeq_app; [exact X|apply oeq_refl]|].
        destruct m as [|m]; [simpl; apply oeq_refl|]. rewrite more_S by auto.
        apply oeq_absorb. intros x Hx. apply in_flat_map in Hx. destruct Hx as (y & Hy & Hx). apply in_flat_map. exists y; split; auto.
        eapply more_mono; [|exact H|exact Hx]; lia.
      * cbn [flat_map]. rewrite E in *. cbn [flat_map] in *. rewrite !app_nil_r in *.
        rewrite more_S by auto. eapply oeq_trans; [apply oeq_app; [apply oeq_refl|exact X]|].
        (* the first m elements come again *)
        assert (P : exists q, more f false (S (k + m)) z = more f false m z ++ q).
        { clear - H. replace (S (k + m)) with (m + S k) by lia. generalize (S k); intros j. clear k. revert z; induction m as [|m IHm]; intros z.
          - simpl. destruct j; [exists []; auto|]. rewrite more_S by auto. eauto.
          - simpl (S m + j). rewrite !more_S by auto. destruct (H z) as [E|(r & E & L)]; rewrite E; simpl.
            + exists []; auto.
            + destruct (IHm r) as (q & Eq). rewrite Eq. exists q. rewrite !app_nil_r. auto. }
        destruct P as (q & Eq). rewrite more_S in Eq by auto.
        destruct m as [|m].
        -- simpl. apply oeq_refl.
        -- assert (Ez : exists p, more f false (S m) z = z :: p) by (rewrite more_S by auto; eauto).
           destruct Ez as (p & Ez). rewrite Ez in *. simpl in Eq. injection Eq as Eq. rewrite Eq.
           (* z :: p ++ (p ++ q) *)
           pose proof (oeq_absorb (z :: p) p q) as Ab. simpl. simpl in Ab. apply Ab. apply incl_tl, incl_refl.
Qed.

Lemma join_oeq am g t a b w : (a <= b)%N -> (a + a < UNBOUNDED)%N -> b = UNBOUNDED \/ (b + b < UNBOUNDED)%N ->
  a = b \/ single_step (ways am t) ->
  oeq (ways am (PRep g t (add_min a a) (add_max b b)) w) (ways am (PCat (PRep g t a b) (PRep g t a b)) w).
Proof.
  intros H1 H2 H3 [H4|H4].
  - subst b. assert (a < UNBOUNDED)%N by lia. rewrite add_max_ok by auto. rewrite add_min_ok by auto.
    replace (a =? UNBOUNDED)%N with false by (symmetry; apply N.eqb_neq; lia).
    rewrite ways_exact by auto. cbn [ways].
    assert (E : forall w, flat_map (fun r => more (ways am t) g (optional a a r) r) (steps (ways am t) (N.to_nat a) w) = steps (ways am t) (N.to_nat a) w).
    { intros v. exact (ways_exact am g t a v H). }
    rewrite E. rewrite N2Nat.inj_add, steps_add.
    rewrite (fm_ext (fun x => flat_map _ _) (steps (ways am t) (N.to_nat a))) by (intros; apply E). apply oeq_refl.
  - rewrite add_min_ok, add_max_ok by auto. cbn [ways]. set (f := ways am t) in *.
    rewrite N2Nat.inj_add, steps_add, !fm_fm. apply oeq_fm_r. intros x. apply oeq_sym.
    set (K := if (b =? UNBOUNDED)%N then length x else N.to_nat (b - a)).
    assert (Sh : forall n y z, In z (steps f n y) -> length z <= length y).
    { intros n y z Hz. destruct (steps_single f n y H4) as [E|(r & E & L)]; rewrite E in Hz; [destruct Hz|]. destruct Hz as [<-|[]]; auto. }
    assert (Mo : forall k y z, In z (more f g k y) -> length z <= length y).
    { intros k y z Hz. apply more_reach in Hz. destruct Hz as (n & Hn). eapply Sh; eauto. }
    assert (E1 : more f g (optional a b x) x = more f g K x).
    { unfold K, optional. destruct (b =? UNBOUNDED)%N; auto. }
    rewrite E1.
    rewrite (fm_ext (fun y => flat_map (fun r => more f g (optional a b r) r) (steps f (N.to_nat a) y))
                    (fun y => flat_map (more f g K) (steps f (N.to_nat a) y))).
    2:{ intros y Hy. apply fm_ext. intros z Hz. unfold K, optional. destruct (b =? UNBOUNDED)%N; auto.
        apply more_sat; auto. apply Sh in Hz. apply Mo in Hy. lia. }
    rewrite (fm_ext (fun z => more f g (optional (a + a) (if (b =? UNBOUNDED)%N then UNBOUNDED else b + b) z) z) (more f g (K + K))).
    2:{ intros z Hz. unfold K, optional. destruct (b =? UNBOUNDED)%N eqn:E.
        - rewrite N.eqb_refl. apply more_sat; auto. apply Sh in Hz. lia.
        - replace (b + b =? UNBOUNDED)%N with false by (symmetry; apply N.eqb_neq; lia). f_equal. lia. }
    apply more_twice; auto.
Qed.

(** Where neighbours are combined, they have equal bounds or repeat a single leaf. *)
Definition plain1 (x : pnode) : Prop :=
  match x with PRep _ t mn mx => mn = mx \/ exists a, t = PAtom a | _ => True end.

Fixpoint joins_plain (t : pnode) : Prop :=
  match t with
  | PLook _ _ | PAtom _ => True
  | PAlt l r => joins_plain l /\ joins_plain r
  | PRep _ t _ _ => joins_plain t
  | PCat l r =>
      joins_plain l /\ joins_plain r /\
      (combinable (fst (combineConsecutiveRepetitions l)) (fst (combineConsecutiveRepetitions r)) = true -> plain1 (fst (combineConsecutiveRepetitions l))) /\
      (forall rl rr, fst (combineConsecutiveRepetitions r) = PCat rl rr ->
         combinable (fst (combineConsecutiveRepetitions l)) rl = true -> plain1 (fst (combineConsecutiveRepetitions l)))
  end.

Lemma combine_oeq am t : (forall a, single_step (am a)) -> bounds_ok t -> (total t < UNBOUNDED)%N -> joins_plain t ->
  forall w, oeq (ways am (fst (combineConsecutiveRepetitions t)) w) (ways am t w).
Proof.
  intros HS. induction t as [k t IH|l IHl r IHr|l IHl r IHr|g t IH mn mx|a]; intros HB HT HP.
  - simpl. intros; apply oeq_refl.
  - simpl in HB, HT, HP. cbn [combineConsecutiveRepetitions].
    destruct (combineConsecutiveRepetitions l) as [l' b1], (combineConsecutiveRepetitions r) as [r' b2]; simpl in IHl, IHr.
    simpl. intros w; apply oeq_app; [apply IHl|apply IHr]; try tauto; lia.
  - simpl in HB, HT. cbn [joins_plain] in HP. cbn [combineConsecutiveRepetitions].
    destruct (combine_facts l) as (L1 & L2 & _); try tauto; try lia.
    destruct (combine_facts r) as (R1 & R2 & _); try tauto; try lia.
    destruct (combineConsecutiveRepetitions l) as [l' b1], (combineConsecutiveRepetitions r) as [r' b2]; cbn [fst] in *.
    destruct HP as (P1 & P2 & P3 & P4).
    assert (A2 : forall w, oeq (ways am l' w) (ways am l w)) by (apply IHl; try tauto; lia).
    assert (B2 : forall w, oeq (ways am r' w) (ways am r w)) by (apply IHr; try tauto; lia).
    assert (Base : forall w, oeq (ways am (PCat l' r') w) (ways am (PCat l r) w)).
    { simpl. intros w; apply oeq_fm; auto. }
    assert (J : forall g t a b, bounds_ok (PRep g t a b) -> (total (PRep g t a b) + total (PRep g t a b) < UNBOUNDED)%N ->
        plain1 (PRep g t a b) ->
        forall w, oeq (ways am (PRep g t (add_min a a) (add_max b b)) w) (ways am (PCat (PRep g t a b) (PRep g t a b)) w)).
    { clear - HS. intros g t a b HB HT HP. simpl in HB, HT, HP. destruct HB as (Q1 & Q2 & Q3 & Q4). pose proof (weight_le a b Q1) as W.
      pose proof (total_pos t).
      assert (Q5 : (a + a < UNBOUNDED)%N) by lia.
      assert (Q6 : b = UNBOUNDED \/ (b + b < UNBOUNDED)%N).
      { destruct (N.eq_dec b UNBOUNDED); auto. right. rewrite weight_ge in HT by auto. lia. }
      intros w. apply join_oeq; auto. destruct HP as [->|(x & ->)]; auto. right. apply HS. }
    destruct (combinable l' r') eqn:E1.
    + specialize (P3 eq_refl). apply combinable_eq in E1. destruct E1 as (g & t & a & b & -> & ->). cbn [fst join_rep].
      intros w. eapply oeq_trans; [apply J; auto; lia|]. apply Base.
    + destruct r' as [| |rl rr| |]; try exact Base.
      destruct (combinable l' rl) eqn:E2; [|exact Base]. clear E1. specialize (P4 rl rr eq_refl E2).
      apply combinable_eq in E2. destruct E2 as (g & t & a & b & -> & ->). cbn [fst join_rep].
      cbn [total] in L2, R2.
      intros w. eapply oeq_trans; [|apply Base].
      change (oeq (flat_map (ways am rr) (ways am (PRep g t (add_min a a) (add_max b b)) w))
                  (flat_map (fun x => flat_map (ways am rr) (ways am (PRep g t a b) x)) (ways am (PRep g t a b) w))).
      rewrite <- fm_fm. apply oeq_fm_l. apply J; auto. cbn [total]; lia.
  - simpl in HB, HT, HP. cbn [combineConsecutiveRepetitions].
    destruct (combineConsecutiveRepetitions t) as [t' b]. cbn [fst] in *.
    intros w. apply rep_oeq. apply IH; try tauto; lia.
  - simpl. intros; apply oeq_refl.
Qed.

Lemma combine_unchanged t : snd (combineConsecutiveRepetitions t) = false -> fst (combineConsecutiveRepetitions t) = t.
Proof.
  induction t as [k t IH|l IHl r IHr|l IHl r IHr|g t IH mn mx|a]; auto; cbn [combineConsecutiveRepetitions].
  - destruct (combineConsecutiveRepetitions l) as [l' b1], (combineConsecutiveRepetitions r) as [r' b2]; simpl in *.
    intros H. apply orb_false_elim in H. destruct H. rewrite IHl, IHr; auto.
  - destruct (combineConsecutiveRepetitions l) as [l' b1], (combineConsecutiveRepetitions r) as [r' b2]; simpl in *.
    destruct (combinable l' r'); [discriminate|].
    assert (Base : snd (PCat l' r', b1 || b2) = false -> fst (PCat l' r', b1 || b2) = PCat l r).
    { simpl. intros H. apply orb_false_elim in H. destruct H. rewrite IHl, IHr; auto. }
    destruct r'; try exact Base. destruct (combinable l' r'1); [discriminate|exact Base].
  - destruct (combineConsecutiveRepetitions t) as [t' b]; simpl in *. intros H; rewrite IH; auto.
Qed.

Lemma uncombined_joins t : snd (combineConsecutiveRepetitions t) = false -> joins_plain t.
Proof.
  induction t as [k t IH|l IHl r IHr|l IHl r IHr|g t IH mn mx|a]; cbn [combineConsecutiveRepetitions joins_plain]; auto.
  - destruct (combineConsecutiveRepetitions l), (combineConsecutiveRepetitions r). simpl in *. intros H. apply orb_false_elim in H as (? & ?). auto.
  - destruct (combineConsecutiveRepetitions l) as [l' b1], (combineConsecutiveRepetitions r) as [r' b2]. cbn [fst snd] in *.
    destruct (combinable l' r') eqn:E; [discriminate|]. intros H.
    assert (K : b1 || b2 = false /\ forall rl rr, r' = PCat rl rr -> combinable l' rl = false).
    { destruct r' as [| |rl rr| |]; try (split; [exact H|discriminate]). destruct (combinable l' rl) eqn:E2; [discriminate|]. split; auto. intros ? ? [= <- <-]; auto. }
    destruct K as (K1 & K2). apply orb_false_elim in K1 as (? & ?). split; [apply IHl; auto|]. split; [apply IHr; auto|]. split; [discriminate|].
    intros rl rr E1 E2. rewrite (K2 rl rr E1) in E2. discriminate.
  - destruct (combineConsecutiveRepetitions t). simpl in *. auto.
Qed.
