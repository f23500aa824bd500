(** The order in which the automaton built for a pattern tries the ways to match it.  It differs from
    [ways] (PatSpec.v), which is what a backtracking matcher does, only for repetitions of something
    that can match the empty string; as sets they always agree with the language. *)
From Coq Require Import List NArith ZArith Bool Lia PeanoNat.
From Verif Require Import Base PatModel PatSpec RewriteProofs.
Import ListNotations.
Open Scope nat_scope.

(** [again body greedy k w]: repeating [body], each time with at least one byte, or stopping. *)
Fixpoint again (body : word -> list word) (greedy : bool) (k : nat) (w : word) : list word :=
  match k with
  | O => [w]
  | S m =>
      let rest := flat_map (fun r => if (length r <? length w)%nat then again body greedy m r else []) (body w) in
      if greedy then rest ++ [w] else w :: rest
  end.

(** one or more times *)
Definition plus_ways (body : word -> list word) (greedy : bool) (w : word) : list word :=
  flat_map (fun r => if (length r <? length w)%nat then again body greedy (length r) r else [r]) (body w).

Definition opt_ways (greedy : bool) (w : word) (l : list word) : list word := if greedy then l ++ [w] else w :: l.

(** at most [k] times *)
Fixpoint opts_ways (body : word -> list word) (greedy : bool) (k : nat) (w : word) : list word :=
  match k with
  | O => [w]
  | S m => opt_ways greedy w (flat_map (opts_ways body greedy m) (body w))
  end.

Fixpoint tries (am : atom -> word -> list word) (t : pnode) (w : word) : list word :=
  match t with
  | PLook _ _ => []
  | PAlt l r => tries am l w ++ tries am r w
  | PCat l r => flat_map (tries am r) (tries am l w)
  | PRep g t mn mx =>
      if (mx =? UNBOUNDED)%N then
        if (mn =? 0)%N then opt_ways g w (plus_ways (tries am t) g w)
        else flat_map (plus_ways (tries am t) g) (steps (tries am t) (N.to_nat mn - 1) w)
      else flat_map (opts_ways (tries am t) g (N.to_nat (mx - mn))) (steps (tries am t) (N.to_nat mn) w)
  | PAtom a => am a w
  end.

(** * [tries] and the language *)
Section Agree.
Context (L : word -> Prop) (body : word -> list word).
Hypothesis HB : forall w r, In r (body w) <-> exists p, w = p ++ r /\ L p.

Lemma in_opt g w l r : In r (opt_ways g w l) <-> r = w \/ In r l.
Proof. unfold opt_ways. destruct g; [rewrite in_app_iff|]; simpl; intuition. Qed.

Lemma again_sound g k : forall w r, In r (again body g k w) -> exists p n, w = p ++ r /\ pow L n p.
Proof.
  induction k as [|k IH]; intros w r.
  - simpl. intros [->|[]]. exists [], 0. simpl; auto.
  - cbn [again]. intros H.
    assert (H' : r = w \/ In r (flat_map (fun r => if (length r <? length w)%nat then again body g k r else []) (body w))).
    { destruct g; [rewrite in_app_iff in H; simpl in H|simpl in H]; intuition. }
    clear H. destruct H' as [->|H].
    + exists [], 0. simpl. auto.
    + apply in_flat_map in H. destruct H as (x & Hx & Hr). apply HB in Hx. destruct Hx as (p & -> & Hp).
      destruct (length x <? length (p ++ x)) eqn:E; [|destruct Hr].
      destruct (IH _ _ Hr) as (q & n & -> & Hq). exists (p ++ q), (S n). rewrite app_assoc.
      split; auto. exists p, q; auto.
Qed.

Lemma again_complete g k : forall n p r, n <= k -> pow (fun x => L x /\ x <> []) n p -> In r (again body g k (p ++ r)).
Proof.
  induction k as [|k IH]; intros n p r Hn H.
  - destruct n; [|lia]. simpl in H. subst. simpl; auto.
  - cbn [again]. destruct n as [|n].
    + simpl in H; subst. simpl. destruct g; simpl; auto. apply in_or_app; right; simpl; auto.
    + destruct H as (u & v & -> & (Hu & Hne) & Hv).
      assert (K : In r (flat_map (fun x => if (length x <? length ((u ++ v) ++ r))%nat then again body g k x else []) (body ((u ++ v) ++ r)))).
      { apply in_flat_map. exists (v ++ r). split.
        - apply HB. exists u. rewrite app_assoc; auto.
        - replace (length (v ++ r) <? length ((u ++ v) ++ r)) with true.
          + apply IH with n; auto; lia.
          + symmetry; apply Nat.ltb_lt. destruct u; [congruence|]. rewrite !app_length; simpl; lia. }
      destruct g; [apply in_or_app; auto|right; auto].
Qed.

Lemma plus_spec g w r : In r (plus_ways body g w) <-> exists p n, w = p ++ r /\ 1 <= n /\ pow L n p.
Proof.
  unfold plus_ways. rewrite in_flat_map. split.
  - intros (x & Hx & Hr). apply HB in Hx. destruct Hx as (p & -> & Hp).
    destruct (length x <? length (p ++ x)) eqn:E.
    + destruct (again_sound _ _ _ _ Hr) as (q & n & -> & Hq). exists (p ++ q), (S n). rewrite app_assoc.
      split; auto. split; [lia|]. exists p, q; auto.
    + destruct Hr as [->|[]]. exists p, 1. repeat split; auto. exists p, []. rewrite app_nil_r. simpl; auto.
  - intros (p & n & -> & Hn & Hp).
    destruct (list_eq_dec N.eq_dec p []) as [->|Hne].
    + assert (L []).
      { clear - Hp Hn. revert Hn Hp. destruct n as [|n]; [lia|]. intros _ (u & v & E & Hu & _).
        symmetry in E. apply app_eq_nil in E as [-> ->]. auto. }
      exists r. split; [apply HB; exists []; auto|]. simpl. rewrite Nat.ltb_irrefl. simpl; auto.
    + destruct (pow_skip _ _ _ Hp) as (m & M1 & M2 & M3).
      destruct m as [|m]; [simpl in M3; congruence|].
      destruct M3 as (u & v & -> & (Hu & Hun) & Hv).
      exists (v ++ r). split; [apply HB; exists u; rewrite app_assoc; auto|].
      replace (length (v ++ r) <? length ((u ++ v) ++ r)) with true.
      * destruct (pow_skip _ _ _ Hv) as (m' & M1' & M2' & M3'). apply again_complete with m'.
        -- rewrite app_length. lia.
        -- eapply pow_ext; [|exact M3']. intros x; simpl; tauto.
      * symmetry; apply Nat.ltb_lt. destruct u; [congruence|]. rewrite !app_length; simpl; lia.
Qed.

Lemma opts_spec g k : forall w r, In r (opts_ways body g k w) <-> exists p n, w = p ++ r /\ n <= k /\ pow L n p.
Proof.
  induction k as [|k IH]; intros w r; cbn [opts_ways].
  - simpl. split.
    + intros [->|[]]. exists [], 0; simpl; auto.
    + intros (p & n & -> & Hn & Hp). destruct n; [|lia]. simpl in Hp. subst. auto.
  - rewrite in_opt, in_flat_map. split.
    + intros [->|(x & Hx & Hr)]; [exists [], 0; simpl; repeat split; auto; lia|].
      apply HB in Hx. destruct Hx as (p & -> & Hp). apply IH in Hr. destruct Hr as (q & n & -> & Hn & Hq).
      exists (p ++ q), (S n). rewrite app_assoc. repeat split; auto; [lia|]. exists p, q; auto.
    + intros (p & n & -> & Hn & Hp). destruct n as [|n]; [simpl in Hp; subst; auto|].
      destruct Hp as (u & v & -> & Hu & Hv). right. exists (v ++ r).
      split; [apply HB; exists u; rewrite app_assoc; auto|]. apply IH. exists v, n. repeat split; auto; lia.
Qed.
End Agree.

Theorem tries_lang A am t : leaves_ok A am -> leaves_nonempty A -> bounds_ok t ->
  forall w r, In r (tries am t w) <-> exists p, w = p ++ r /\ lang A t p.
Proof.
  intros HL HN. induction t as [k t IH|l IHl r IHr|l IHl r IHr|g t IH mn mx|a]; cbn [tries lang bounds_ok]; intros HB w x.
  - split; [intros []|]. intros (? & _ & []).
  - rewrite in_app_iff, IHl, IHr by tauto. split.
    + intros [(p & E & H)|(p & E & H)]; exists p; auto.
    + intros (p & E & [H|H]); eauto.
  - rewrite in_flat_map. split.
    + intros (y & Hy & Hx). apply IHl in Hy; [|tauto]. apply IHr in Hx; [|tauto].
      destruct Hy as (p & -> & Hp). destruct Hx as (q & -> & Hq). exists (p ++ q). rewrite app_assoc. eauto 7.
    + intros (p & -> & u & v & -> & Hu & Hv). exists (v ++ x). split.
      * apply IHl; [tauto|]. exists u. rewrite app_assoc; auto.
      * apply IHr; [tauto|]. eauto.
  - destruct HB as (B1 & B2 & B3 & B4). specialize (IH B4).
    pose proof (steps_spec (lang A t) (tries am t) IH) as HS.
    pose proof (plus_spec (lang A t) (tries am t) IH g) as HP.
    pose proof (opts_spec (lang A t) (tries am t) IH g) as HO.
    destruct (N.eqb_spec mx UNBOUNDED) as [->|Hx].
    + destruct (N.eqb_spec mn 0) as [->|Hn].
      * rewrite in_opt, HP. unfold within. split.
        -- intros [->|(p & n & -> & Hn & Hp)]; [exists []; split; auto; exists 0; simpl; repeat split; auto; lia|].
           exists p; split; auto. exists n. repeat split; auto; lia.
        -- intros (p & -> & n & _ & Hp). destruct n as [|n]; [left; simpl in Hp; subst; auto|].
           right. exists p, (S n). repeat split; auto; lia.
      * rewrite in_flat_map. unfold within. split.
        -- intros (y & Hy & Hr). apply HS in Hy. destruct Hy as (p & -> & Hp). apply HP in Hr. destruct Hr as (q & n & -> & Hn' & Hq).
           exists (p ++ q). rewrite app_assoc. split; auto. exists ((N.to_nat mn - 1) + n). split; [split; [lia|auto]|]. apply pow_app; auto.
        -- intros (p & -> & n & (W1 & _) & Hp). replace n with ((N.to_nat mn - 1) + (n - (N.to_nat mn - 1))) in Hp by lia.
           apply pow_split in Hp. destruct Hp as (u & v & -> & Hu & Hv). exists (v ++ x). split.
           ++ apply HS. exists u. rewrite app_assoc; auto.
           ++ apply HP. exists v, (n - (N.to_nat mn - 1)). repeat split; auto; lia.
    + rewrite in_flat_map. unfold within. split.
      * intros (y & Hy & Hr). apply HS in Hy. destruct Hy as (p & -> & Hp). apply HO in Hr. destruct Hr as (q & n & -> & Hn' & Hq).
        exists (p ++ q). rewrite app_assoc. split; auto. exists (N.to_nat mn + n). split; [split; [lia|right; lia]|]. apply pow_app; auto.
      * intros (p & -> & n & (W1 & [W2|W2]) & Hp); [congruence|]. replace n with (N.to_nat mn + (n - N.to_nat mn)) in Hp by lia.
        apply pow_split in Hp. destruct Hp as (u & v & -> & Hu & Hv). exists (v ++ x). split.
        -- apply HS. exists u. rewrite app_assoc; auto.
        -- apply HO. exists v, (n - N.to_nat mn). repeat split; auto; lia.
  - rewrite (HL a). split.
    + intros (p & E & _ & H); eauto.
    + intros (p & E & H). exists p. repeat split; auto. intros ->. exact (HN a H).
Qed.

(** * [tries] and backtracking *)

(** Nothing that can match the empty string is repeated more than once. *)
Fixpoint firm_loops (t : pnode) : Prop :=
  match t with
  | PLook _ t => firm_loops t
  | PAlt l r | PCat l r => firm_loops l /\ firm_loops r
  | PRep _ t mn mx => firm_loops t /\ (hasZeroLengthMatch t = false \/ (mx <= 1)%N)
  | PAtom _ => True
  end.

Definition shrinks (body : word -> list word) : Prop := forall w r, In r (body w) -> length r < length w.

Lemma flat_map_ext_in {A B} (f h : A -> list B) l : (forall x, In x l -> f x = h x) -> flat_map f l = flat_map h l.
Proof. intros H. induction l as [|a l IH]; simpl; auto. rewrite H by (left; auto). rewrite IH; auto. intros; apply H; right; auto. Qed.

Lemma again_more body g k : shrinks body -> forall w, again body g k w = more body g k w.
Proof.
  intros HS. induction k as [|k IH]; intros w; auto. cbn [again more].
  rewrite (flat_map_ext_in (fun r => if length r <? length w then again body g k r else [])
            (fun r => if length r <? length w then more body g k r else [r]) (body w)); auto.
  intros x Hx. apply HS in Hx. apply Nat.ltb_lt in Hx. rewrite Hx. auto.
Qed.

Lemma more_enough body g : shrinks body -> forall k w, length w <= k -> more body g k w = more body g (length w) w.
Proof.
  intros HS. induction k as [k IH] using lt_wf_ind. intros w Hk.
  destruct k as [|k]; [destruct w; [auto|simpl in Hk; lia]|].
  destruct w as [|b w].
  - simpl. assert (E : body [] = []).
    { destruct (body []) as [|x l] eqn:E; auto. assert (H: In x (body [])) by (rewrite E; left; auto). apply HS in H. simpl in H. lia. }
    rewrite E. simpl. destruct g; auto.
  - change (length (b :: w)) with (S (length w)) in *. cbn [more].
    rewrite (flat_map_ext_in (fun r => if length r <? length (b :: w) then more body g k r else [r])
              (fun r => if length r <? length (b :: w) then more body g (length w) r else [r]) (body (b :: w))); auto.
    intros x Hx. apply HS in Hx. simpl in Hx. assert (Hx' : length x <? length (b :: w) = true) by (apply Nat.ltb_lt; simpl; lia).
    rewrite Hx'. rewrite (IH k) by lia. destruct (Nat.eq_dec k (length w)) as [->|]; [rewrite <- (IH (length w)) by lia; auto|].
    rewrite <- (IH (length w)) by lia. auto.
Qed.

Lemma opts_more body g k : shrinks body -> forall w, opts_ways body g k w = more body g k w.
Proof.
  intros HS. induction k as [|k IH]; intros w; auto. cbn [opts_ways more]. unfold opt_ways.
  rewrite (flat_map_ext_in (opts_ways body g k) (fun r => if length r <? length w then more body g k r else [r]) (body w)); auto.
  intros x Hx. apply HS in Hx. apply Nat.ltb_lt in Hx. rewrite Hx. auto.
Qed.

Lemma steps_snoc body n : forall w, steps body (S n) w = flat_map body (steps body n w).
Proof.
  induction n as [|n IH]; intros w.
  - simpl. rewrite app_nil_r. induction (body w); simpl; congruence.
  - change (steps body (S (S n)) w) with (flat_map (steps body (S n)) (body w)).
    change (steps body (S n) w) with (flat_map (steps body n) (body w)).
    induction (body w) as [|x l IHl]; auto. cbn [flat_map]. rewrite flat_map_app, IHl, <- IH. auto.
Qed.

Lemma flat_map_flat_map {A B C} (f : A -> list B) (h : B -> list C) l : flat_map h (flat_map f l) = flat_map (fun x => flat_map h (f x)) l.
Proof. induction l; simpl; auto. rewrite flat_map_app. congruence. Qed.

Lemma plus_more body g : shrinks body -> forall w, plus_ways body g w = flat_map (fun r => more body g (length r) r) (body w).
Proof.
  intros HS w. unfold plus_ways. apply flat_map_ext_in. intros x Hx. apply HS in Hx. apply Nat.ltb_lt in Hx. rewrite Hx.
  apply again_more; auto.
Qed.

Lemma star_more body g : shrinks body -> forall w, opt_ways g w (plus_ways body g w) = more body g (length w) w.
Proof.
  intros HS w. rewrite plus_more by auto. destruct w as [|b w].
  - assert (E : body [] = []).
    { destruct (body []) as [|x l] eqn:E; auto. assert (H: In x (body [])) by (rewrite E; left; auto). apply HS in H. simpl in H. lia. }
    rewrite E. simpl. destruct g; auto.
  - change (length (b :: w)) with (S (length w)). cbn [more]. unfold opt_ways.
    rewrite (flat_map_ext_in (fun r => if length r <? length (b :: w) then more body g (length w) r else [r])
               (fun r => more body g (length r) r) (body (b :: w))); auto.
    intros x Hx. apply HS in Hx. pose proof Hx as Hx'. apply Nat.ltb_lt in Hx'. rewrite Hx'. apply more_enough; auto. simpl in Hx. lia.
Qed.

Lemma ways_zero A am t : leaves_ok A am -> leaves_nonempty A -> bounds_ok t -> hasZeroLengthMatch t = false -> shrinks (ways am t).
Proof.
  intros HL HN. revert A HL HN. intros A HL HN.
  assert (Z : forall t, bounds_ok t -> hasZeroLengthMatch t = false -> ~ lang A t []).
  { clear t. induction t as [k t IH|l IHl r IHr|l IHl r IHr|g t IH mn mx|a]; cbn [bounds_ok hasZeroLengthMatch lang]; intros HB HZ; auto.
    - apply orb_false_iff in HZ. intros [H|H]; [apply IHl in H|apply IHr in H]; tauto.
    - intros (u & v & E & Hu & Hv). symmetry in E. apply app_eq_nil in E as [-> ->].
      apply andb_false_iff in HZ. destruct HZ as [HZ|HZ]; [apply IHl in Hu|apply IHr in Hv]; tauto.
    - apply orb_false_iff in HZ. destruct HZ as [HZ1 HZ2]. intros (n & (W & _) & Hp).
      destruct n as [|n]; [lia|]. destruct Hp as (u & v & E & Hu & _). symmetry in E. apply app_eq_nil in E as [-> ->].
      apply IH in Hu; tauto. }
  intros HB HZ w r Hr. apply (ways_lang A am t HL HN HB) in Hr. destruct Hr as (p & -> & Hp).
  destruct p as [|b p]; [exfalso; eapply Z; eauto|]. rewrite app_length; simpl; lia.
Qed.

Lemma steps_ext f h n : (forall w, f w = h w) -> forall w, steps f n w = steps h n w.
Proof. intros H; induction n as [|n IH]; simpl; intros w; auto. rewrite H. apply flat_map_ext_in. intros; apply IH. Qed.
Lemma more_ext f h g k : (forall w, f w = h w) -> forall w, more f g k w = more h g k w.
Proof.
  intros H; induction k as [|k IH]; simpl; intros w; auto. rewrite H.
  rewrite (flat_map_ext_in (fun r => if length r <? length w then more f g k r else [r]) (fun r => if length r <? length w then more h g k r else [r])); auto.
  intros x _. rewrite IH. auto.
Qed.

Lemma shrinks_ext f h : (forall w, f w = h w) -> shrinks f -> shrinks h.
Proof. intros E H w r Hr. rewrite <- E in Hr. auto. Qed.

(** * Congruence *)
Lemma oeq_opt g v l m : oeq l m -> oeq (opt_ways g v l) (opt_ways g v m).
Proof. intros H. unfold opt_ways. destruct g; [apply oeq_app; [auto|apply oeq_refl]|apply (oeq_app [v] [v]); [apply oeq_refl|auto]]. Qed.

Lemma oeq_again f h g : (forall w, oeq (f w) (h w)) -> forall k w, oeq (again f g k w) (again h g k w).
Proof.
  intros H. induction k as [|k IHk]; intros v; cbn [again]; [apply oeq_refl|].
  apply (oeq_opt g v). apply oeq_fm; [apply H|]. intros x. destruct (_ <? _); [apply IHk|apply oeq_refl].
Qed.

Lemma oeq_plus f h g : (forall w, oeq (f w) (h w)) -> forall w, oeq (plus_ways f g w) (plus_ways h g w).
Proof. intros H v. unfold plus_ways. apply oeq_fm; [apply H|]. intros x. destruct (_ <? _); [apply oeq_again, H|apply oeq_refl]. Qed.

Lemma oeq_opts f h g : (forall w, oeq (f w) (h w)) -> forall k w, oeq (opts_ways f g k w) (opts_ways h g k w).
Proof. intros H. induction k as [|k IHk]; intros v; cbn [opts_ways]; [apply oeq_refl|]. apply oeq_opt. apply oeq_fm; [apply H|apply IHk]. Qed.

Theorem tries_ways A am t : leaves_ok A am -> leaves_nonempty A -> bounds_ok t -> firm_loops t ->
  forall w, oeq (tries am t w) (ways am t w).
Proof.
  intros HL HN. induction t as [k t IH|l IHl r IHr|l IHl r IHr|g t IH mn mx|a]; cbn [tries bounds_ok firm_loops]; intros HB HF w.
  - apply oeq_refl.
  - cbn [ways]. apply oeq_app; [apply IHl|apply IHr]; tauto.
  - cbn [ways]. apply oeq_fm; [apply IHl; tauto|]. intros; apply IHr; tauto.
  - destruct HB as (B1 & B2 & B3 & B4). destruct HF as (F1 & F2). specialize (IH B4 F1).
    assert (ROE : oeq (if (mx =? UNBOUNDED)%N
        then if (mn =? 0)%N then opt_ways g w (plus_ways (ways am t) g w)
             else flat_map (plus_ways (ways am t) g) (steps (ways am t) (N.to_nat mn - 1) w)
        else flat_map (opts_ways (ways am t) g (N.to_nat (mx - mn))) (steps (ways am t) (N.to_nat mn) w))
      (ways am (PRep g t mn mx) w)).
    { cbn [ways]. destruct F2 as [F2|F2].
      - pose proof (ways_zero A am t HL HN B4 F2) as HS. unfold optional. destruct (N.eqb_spec mx UNBOUNDED) as [E|E].
        + destruct (N.eqb_spec mn 0) as [->|Hn].
          * rewrite star_more by auto. simpl. rewrite app_nil_r. apply oeq_refl.
          * replace (N.to_nat mn) with (S (N.to_nat mn - 1)) at 2 by lia. rewrite steps_snoc, flat_map_flat_map.
            rewrite (flat_map_ext_in _ (fun x => flat_map (fun r => more (ways am t) g (length r) r) (ways am t x)) (steps (ways am t) (N.to_nat mn - 1) w)); [apply oeq_refl|].
            intros; apply plus_more; auto.
        + rewrite (flat_map_ext_in (opts_ways (ways am t) g (N.to_nat (mx - mn))) (fun r => more (ways am t) g (N.to_nat (mx - mn)) r)); [apply oeq_refl|].
          intros; apply opts_more; auto.
      - assert (Hm : mx = 0%N \/ mx = 1%N) by lia. unfold optional.
        assert (E : (mx =? UNBOUNDED)%N = false) by (apply N.eqb_neq; unfold UNBOUNDED; lia). rewrite E.
        apply oeq_fm_r. intros x. assert (Hk : N.to_nat (mx - mn) = 0 \/ N.to_nat (mx - mn) = 1) by lia.
        destruct Hk as [->| ->]; [apply oeq_refl|]. cbn [opts_ways more]. unfold opt_ways.
        rewrite (flat_map_ext_in (fun r => if length r <? length x then more (ways am t) g 0 r else [r]) (fun r => [r])); [apply oeq_refl|].
        intros y _. simpl. destruct (_ <? _); auto. }
    eapply oeq_trans; [|exact ROE].
    destruct (mx =? UNBOUNDED)%N; [destruct (mn =? 0)%N|].
    + apply oeq_opt, oeq_plus, IH.
    + apply oeq_fm; [apply oeq_steps, IH|apply oeq_plus, IH].
    + apply oeq_fm; [apply oeq_steps, IH|apply oeq_opts, IH].
  - apply oeq_refl.
Qed.
