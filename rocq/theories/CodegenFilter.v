(** The two-byte filter chosen for an automaton rejects no position at which it matches. *)
From Verif Require Import Base InstrModel NfaModel CodegenModel CodegenSpec CodegenLayout CodegenSem.
From Verif Require Import VmModel VmGeneric.
Open Scope N_scope.

(** * Walks through an automaton *)

(** From state [v], reading the bytes [w], through the states [vs] to a match state. *)
Fixpoint walk (g : nfa) (v : nat) (w : list N) (vs : list nat) {struct vs} : Prop :=
  match vs with
  | [] => exists x, nth_error g v = Some x /\ v_match x = true
  | c :: r => match w with
              | [] => False
              | b :: w' => edge g v c /\ enters g c b = true /\ walk g c w' r
              end
  end.

Lemma first_some_ex {A B} (f : A -> option B) l b : first_some f l = Some b -> exists a, In a l /\ f a = Some b.
Proof.
  induction l as [|a l IH]; simpl; [discriminate|]. destruct (f a) eqn:E.
  - intros [= <-]. eauto.
  - intros H. destruct (IH H) as (a' & H1 & H2). eauto.
Qed.

Lemma best_walk g l : forall w lab v pos e, best g l lab w v pos = Some e -> exists vs, walk g v w vs.
Proof.
  induction w as [|b w IH]; intros lab v pos e H; cbn [best] in H.
  - destruct (nth_error g v) as [x|] eqn:E; [|discriminate]. exists []. simpl. exists x. split; auto.
    destruct (v_match x); auto. discriminate.
  - destruct (nth_error g v) as [x|] eqn:E; [|discriminate].
    match type of H with match ?f with _ => _ end = _ => destruct f eqn:Ef end.
    + apply first_some_ex in Ef. destruct Ef as (c & Hc & Hb). destruct (enters g c b) eqn:Een; [|discriminate].
      destruct (IH _ _ _ _ Hb) as (vs & Hvs). exists (c :: vs). simpl. split; auto.
      unfold edge. rewrite (edge_outs _ _ _ E). auto.
    + exists []. simpl. exists x. split; auto. destruct (v_match x); auto. discriminate.
Qed.

(** * Bits of the filter *)

Definition pbit (n lo hi : N) : bool := N.testbit n (lo + 256 * hi).

Lemma chunks_bit first second lo : N.testbit first lo = true -> forall n s hi, s <= hi -> hi < s + N.of_nat n -> N.testbit second hi = true ->
  N.testbit (chunks first second s n) (lo + 256 * (hi - s)) = true.
Proof.
  intros HF. induction n as [|n IH]; intros s hi Hs Hn H2; [lia|]. cbn [chunks]. rewrite N.lor_spec. destruct (N.eq_dec s hi) as [->|Hne].
  - rewrite H2, N.sub_diag, N.mul_0_r, N.add_0_r, HF. auto.
  - rewrite N.shiftl_spec_high' by lia. replace (lo + 256 * (hi - s) - 256) with (lo + 256 * (hi - (s + 1))) by lia.
    rewrite (IH (s + 1) hi) by (auto; lia). apply orb_true_r.
Qed.

Lemma or_chunks_keep first second bits lo hi : pbit bits lo hi = true -> pbit (or_chunks first second bits) lo hi = true.
Proof. unfold pbit, or_chunks. intros H. rewrite N.lor_spec, H. auto. Qed.

Lemma or_chunks_new first second bits lo hi : hi < 256 -> N.testbit second hi = true -> N.testbit first lo = true ->
  pbit (or_chunks first second bits) lo hi = true.
Proof.
  intros H0 H1 H2. unfold pbit, or_chunks. rewrite N.lor_spec.
  pose proof (chunks_bit first second lo H2 256 0 hi ltac:(lia) ltac:(change (N.of_nat 256) with 256; lia) H1) as X. rewrite N.sub_0_r in X. rewrite X. apply orb_true_r.
Qed.

Lemma trans_at_enters g v t b : trans_at g v = Ok t -> N.testbit (bytes_of t) b = enters g v b.
Proof.
  unfold trans_at. intros H. inv_bind H. apply get_ok in E. destruct (v_trans x) eqn:Et; [|discriminate]. injection H as <-.
  unfold enters. rewrite E, Et. apply bytes_of_allowed.
Qed.

Lemma pairs_second_ok g first lo hi : hi < 256 -> forall ts bits bits', pairs_second g first ts bits = Ok bits' ->
  (pbit bits lo hi = true -> pbit bits' lo hi = true) /\
  (forall t, In t ts -> enters g t hi = true -> N.testbit first lo = true -> pbit bits' lo hi = true).
Proof.
  intros Hh. induction ts as [|t ts IH]; intros bits bits' H; simpl in H.
  - injection H as <-. split; [auto|intros t []].
  - inv_bind H. destruct (IH _ _ H) as (H1 & H2). split.
    + intros Hb. apply H1, or_chunks_keep; auto.
    + intros u [<-|Hu] He Hf; [|apply (H2 u); auto]. apply H1, or_chunks_new; auto. rewrite (trans_at_enters _ _ _ _ E). auto.
Qed.

(** The pairs that may follow state [v]. *)
Definition pair_from (g : nfa) (v : nat) (lo hi : N) : Prop :=
  exists c x, edge g v c /\ nth_error g c = Some x /\ enters g c lo = true /\
    (v_match x = true \/ exists c2, edge g c c2 /\ enters g c2 hi = true).

Lemma pairs_first_ok g lo hi : hi < 256 -> forall ts bits bits', pairs_first g ts bits = Ok bits' ->
  (pbit bits lo hi = true -> pbit bits' lo hi = true) /\
  (forall c x, In c ts -> nth_error g c = Some x -> enters g c lo = true ->
    (v_match x = true \/ exists c2, edge g c c2 /\ enters g c2 hi = true) -> pbit bits' lo hi = true).
Proof.
  intros Hh. induction ts as [|t ts IH]; intros bits bits' H; simpl in H.
  - injection H as <-. split; [auto|intros c x []].
  - inv_bind H. inv_bind H. inv_bind H. destruct (IH _ _ H) as (H1 & H2). apply get_ok in E0.
    assert (H3: (pbit bits lo hi = true -> pbit x1 lo hi = true) /\
       (enters g t lo = true -> (v_match x0 = true \/ exists c2, edge g t c2 /\ enters g c2 hi = true) -> pbit x1 lo hi = true)).
    { destruct (v_match x0) eqn:Em.
      - injection E1 as <-. split; [apply or_chunks_keep|]. intros He _. apply or_chunks_new; auto.
        + rewrite N.ones_spec_low; auto. 
        + rewrite (trans_at_enters _ _ _ _ E). auto.
      - destruct (pairs_second_ok g _ lo hi Hh _ _ _ E1) as (P1 & P2). split; auto.
        intros He [?|(c2 & Hc & Hc2)]; [discriminate|]. apply (P2 c2); auto.
        + unfold edge in Hc. rewrite (edge_outs _ _ _ E0) in Hc. auto.
        + rewrite (trans_at_enters _ _ _ _ E). auto. }
    destruct H3 as (H3 & H4). split; [auto|]. intros c y [<-|Hc] Hy He Hm.
    + apply H1, H4; auto. congruence.
    + apply (H2 c y); auto.
Qed.

(** * The search through the automaton *)

Fixpoint hsorted (s : list (N * nat)) : Prop :=
  match s with
  | [] => True
  | y :: r => (forall z, In z r -> fst y <= fst z) /\ hsorted r
  end.

Lemma heap_add_in x s y : In y (heap_add x s) <-> y = x \/ In y s.
Proof.
  induction s as [|z s IH]; simpl; [intuition|].
  destruct ((fst x <? fst z) || ((fst x =? fst z) && (snd x <? snd z)%nat)); [simpl; intuition|].
  destruct ((fst x =? fst z) && (snd x =? snd z)%nat) eqn:E.
  - apply andb_true_iff in E. destruct E as (E1 & E2). apply N.eqb_eq in E1. apply Nat.eqb_eq in E2.
    assert (x = z) by (destruct x, z; simpl in *; congruence). subst z. simpl. intuition.
  - simpl. rewrite IH. intuition.
Qed.

Lemma heap_add_sorted x s : hsorted s -> hsorted (heap_add x s).
Proof.
  induction s as [|z s IH]; intros H; simpl; [split; auto; intros ? []|].
  destruct H as (H1 & H2).
  destruct ((fst x <? fst z) || ((fst x =? fst z) && (snd x <? snd z)%nat)) eqn:E.
  - simpl. split; [|auto]. apply orb_true_iff in E.
    assert (fst x <= fst z).
    { destruct E as [E|E]; [apply N.ltb_lt in E; lia|]. apply andb_true_iff in E. destruct E as (E & _). apply N.eqb_eq in E. lia. }
    intros y [<-|Hy]; auto. specialize (H1 y Hy). lia.
  - apply orb_false_iff in E. destruct E as (E & _). apply N.ltb_ge in E.
    destruct ((fst x =? fst z) && (snd x =? snd z)%nat); [simpl; auto|]. simpl. split; auto.
    intros y Hy. apply heap_add_in in Hy. destruct Hy as [->|Hy]; auto.
Qed.

Lemma heap_adds d ts : forall s, hsorted s -> hsorted (fold_left (fun s t => heap_add (d, t) s) ts s) /\
  forall y, In y (fold_left (fun s t => heap_add (d, t) s) ts s) <-> In y s \/ (fst y = d /\ In (snd y) ts).
Proof.
  induction ts as [|t ts IH]; intros s Hs; simpl.
  - split; auto. intuition.
  - destruct (IH _ (heap_add_sorted (d, t) s Hs)) as (H1 & H2). split; auto. intros y. rewrite H2, heap_add_in.
    destruct y as [k v]. simpl. split.
    + intros [[H|H]|(H & H')]; auto. injection H as -> ->. auto.
    + intros [H|(H & [H'|H'])]; auto. subst. auto.
Qed.

Record pinv (g : nfa) (D next : list (N * nat)) (b : list N) (lmin : N) : Prop := {
  pv_root : In (0, 0%nat) D \/ In (0, 0%nat) next;
  pv_sorted : hsorted next;
  pv_lmin : lmin <= 4294967294;
  pv_succ : forall k v c, In (k, v) D -> k < lmin + 1 -> edge g v c -> In (k + 1, c) D \/ In (k + 1, c) next;
  pv_match : forall k v x, In (k, v) D -> nth_error g v = Some x -> v_match x = true -> lmin <= k;
  pv_bits : forall k v lo hi, In (k, v) D -> hi < 256 -> pair_from g v lo hi ->
     exists n, nth_error b (N.to_nat k) = Some n /\ pbit n lo hi = true
}.

Lemma pair_loop_inv g : forall fuel next b lmin D b' lmin', pinv g D next b lmin ->
  pair_loop fuel g next b lmin = Ok (b', lmin') ->
  exists D' next', pinv g D' next' b' lmin' /\ forall y, In y next' -> lmin' + 1 < fst y.
Proof.
  induction fuel as [|fuel IH]; intros next b lmin D b' lmin' I H.
  - destruct next as [|[depth v] rest]; simpl in H.
    + injection H as <- <-. exists D, []. split; auto. intros y [].
    + destruct (N.ltb_spec (lmin + 1) depth) as [Hlt|Hge]; [|discriminate]. injection H as <- <-.
      exists D, ((depth, v) :: rest). split; auto. destruct (pv_sorted _ _ _ _ _ I) as (Hs & _).
      intros y [<-|Hy]; auto. specialize (Hs y Hy). simpl in Hs. lia.
  - destruct next as [|[depth v] rest]; simpl in H.
    + injection H as <- <-. exists D, []. split; auto. intros y [].
    + destruct (N.ltb_spec (lmin + 1) depth) as [Hlt|Hge].
      { injection H as <- <-. exists D, ((depth, v) :: rest). split; auto. destruct (pv_sorted _ _ _ _ _ I) as (Hs & _).
        intros y [<-|Hy]; auto. specialize (Hs y Hy). simpl in Hs. lia. }
      inv_bind H. apply get_ok in E. inv_bind H. apply get_ok in E0. inv_bind H.
      set (lm := if v_match x && (depth <? lmin) then depth else lmin) in *.
      assert (Hlm: lm <= lmin /\ (v_match x = true -> lm <= depth)).
      { unfold lm. destruct (v_match x); simpl; [|split; [lia|discriminate]].
        destruct (N.ltb_spec depth lmin); split; intros; lia. }
      destruct Hlm as (Hlm1 & Hlm2). clearbody lm.
      pose proof (pv_lmin _ _ _ _ _ I) as Hl. destruct (pv_sorted _ _ _ _ _ I) as (Hs1 & Hs2).
      set (next' := if depth <? lm + 1 then fold_left (fun s t => heap_add ((depth + 1) mod two32, t) s) (v_out x) rest else rest) in *.
      assert (Hn: hsorted next' /\ (forall y, In y rest -> In y next') /\
         (depth < lm + 1 -> forall c, edge g v c -> In (depth + 1, c) next')).
      { unfold next'. destruct (N.ltb_spec depth (lm + 1)) as [Hd|Hd].
        - rewrite N.mod_small by (unfold two32; lia). destruct (heap_adds (depth + 1) (v_out x) rest Hs2) as (A1 & A2).
          split; auto. split; [intros y Hy; apply A2; auto|]. intros _ c Hc. apply A2. right. simpl. split; auto.
          unfold edge in Hc. rewrite (edge_outs _ _ _ E) in Hc. auto.
        - split; auto. split; auto. lia. }
      destruct Hn as (Hn1 & Hn2 & Hn3). clearbody next'.
      apply (IH _ _ _ ((depth, v) :: D)) in H; auto. constructor; auto; try lia.
      * destruct (pv_root _ _ _ _ _ I) as [Hr|[Hr|Hr]]; [left; right; auto|left; left; congruence|right; auto].
      * intros k u c [Hk|Hk] Hlt Hc.
        -- injection Hk as <- <-. right. auto.
        -- destruct (pv_succ _ _ _ _ _ I k u c Hk) as [Hr|[Hr|Hr]]; auto; try lia; [left; right; auto|left; left; auto].
      * intros k u y [Hk|Hk] Hy Hm.
        -- injection Hk as <- <-. apply Hlm2. congruence.
        -- pose proof (pv_match _ _ _ _ _ I k u y Hk Hy Hm). lia.
      * intros k u lo hi Hk Hh Hp.
        assert (Hlen: (N.to_nat depth < length (b ++ repeat 0%N (N.to_nat depth + 1 - length b)))%nat) by (apply nth_error_Some; congruence).
        destruct (pairs_first_ok g lo hi Hh _ _ _ E1) as (P1 & P2).
        destruct (N.eq_dec k depth) as [->|Hne].
        -- exists x1. split; [apply nth_upd_same; auto|]. destruct Hk as [Hk|Hk].
           ++ injection Hk as <-. destruct Hp as (c & y & Hc & Hy & He & Hm). apply (P2 c y); auto.
              unfold edge in Hc. rewrite (edge_outs _ _ _ E) in Hc. auto.
           ++ destruct (pv_bits _ _ _ _ _ I depth u lo hi Hk Hh Hp) as (n & Hn & Hb). apply P1.
              rewrite nth_error_app1 in E0 by (apply nth_error_Some; congruence). congruence.
        -- destruct Hk as [Hk|Hk]; [congruence|].
           destruct (pv_bits _ _ _ _ _ I k u lo hi Hk Hh Hp) as (n & Hn & Hb). exists n. split; auto.
           rewrite nth_upd_other by lia. rewrite nth_error_app1; auto. apply nth_error_Some. congruence.
Qed.

Lemma walk_bits g D next b lmin : pinv g D next b lmin -> (forall y, In y next -> lmin + 1 < fst y) ->
  forall vs v w d, In (d, v) D -> walk g v w vs -> d <= lmin -> Forall (fun c => c < 256) w ->
  lmin <= d + N.of_nat (length vs) /\
  forall o lo hi, d <= o -> o < lmin -> nth_error w (N.to_nat (o - d)) = Some lo -> nth_error w (N.to_nat (o - d) + 1) = Some hi ->
    exists n, nth_error b (N.to_nat o) = Some n /\ pbit n lo hi = true.
Proof.
  intros I Hnext. induction vs as [|c vs IH]; intros v w d Hd Hw Hdl Hb.
  - simpl in Hw. destruct Hw as (x & Ex & Em). pose proof (pv_match _ _ _ _ _ I d v x Hd Ex Em).
    split; [simpl; lia|]. intros; lia.
  - destruct w as [|c0 w]; [destruct Hw|]. destruct Hw as (He & Hen & Hw).
    assert (Hin: In (d + 1, c) D).
    { destruct (pv_succ _ _ _ _ _ I d v c Hd) as [Hr|Hr]; auto; [lia|]. apply Hnext in Hr. simpl in Hr. lia. }
    inversion Hb as [|? ? Hb1 Hb2]; subst.
    destruct (N.eq_dec d lmin) as [->|Hne].
    { split; [lia|]. intros; lia. }
    destruct (IH c w (d + 1) Hin Hw ltac:(lia) Hb2) as (H1 & H2). split.
    { cbn [length]. lia. }
    intros o lo hi Ho Hol Hlo Hhi.
    destruct (N.eq_dec o d) as [->|Hod].
    + replace (N.to_nat (d - d)) with 0%nat in * by lia. simpl in Hlo. injection Hlo as <-. change (nth_error w 0 = Some hi) in Hhi.
      assert (Hh: hi < 256) by (rewrite Forall_forall in Hb2; apply Hb2; eapply nth_error_In; eauto).
      apply (pv_bits _ _ _ _ _ I d v c0 hi Hd Hh).
      destruct (nth_error g c) as [x|] eqn:Ex.
      2:{ unfold enters in Hen. rewrite Ex in Hen. discriminate. }
      exists c, x. split; auto. split; auto. split; auto.
      destruct vs as [|c2 vs].
      * left. simpl in Hw. destruct Hw as (x' & Ex' & Em). congruence.
      * right. destruct w as [|c1 w]; [destruct Hw|]. destruct Hw as (He2 & Hen2 & _). simpl in Hhi. injection Hhi as <-.
        exists c2. auto.
    + apply (H2 o lo hi); try lia.
      * replace (N.to_nat (o - d)) with (S (N.to_nat (o - (d + 1)))) in Hlo by lia. exact Hlo.
      * replace (N.to_nat (o - d) + 1)%nat with (S (N.to_nat (o - (d + 1)) + 1)) in Hhi by lia. exact Hhi.
Qed.

Lemma min_index_ok : forall b i best j n, min_index b i best = (j, n) ->
  (j, n) = best \/ (i <= j /\ nth_error b (j - i) = Some n)%nat.
Proof.
  induction b as [|x b IH]; intros i best j n H; simpl in H.
  - auto.
  - apply IH in H. destruct H as [H|(H1 & H2)].
    + destruct (popcount x <? popcount (snd best)); auto. injection H as -> ->. right. rewrite Nat.sub_diag. auto.
    + right. split; [lia|]. replace (j - i)%nat with (S (j - S i)) by lia. auto.
Qed.

(** The filter chosen: if the two bytes at its offset are rejected, nothing matches. *)
Theorem bestPair_sound fuel g off filter : bestPair fuel g = Ok (off, filter) ->
  forall l w s lo hi, Forall (fun c => c < 256) w ->
  nth_error w (N.to_nat off) = Some lo -> nth_error w (N.to_nat off + 1) = Some hi ->
  N.testbit filter (lo + 256 * hi) = false -> best g l NOLABEL w 0 s = None.
Proof.
  unfold bestPair. intros H l w s lo hi Hb Hlo Hhi Hf. inv_bind H. destruct x as [b lmin].
  assert (I0: pinv g [] [(0, 0%nat)] [] 4294967294).
  { constructor; simpl; try easy; auto. }
  destruct (pair_loop_inv g _ _ _ _ _ _ _ I0 E) as (D & next & I & Hnext).
  set (b' := if lmin <? N.of_nat (length b) then firstn (N.to_nat lmin) b else b) in *.
  assert (Hoff: nth_error b' (N.to_nat off) = Some filter).
  { destruct b' as [|x r]; [discriminate|]. destruct (min_index r 1 (0%nat, x)) as [i bits] eqn:Em. injection H as <- <-.
    rewrite Nat2N.id. apply min_index_ok in Em. destruct Em as [Em|(Em1 & Em2)].
    - injection Em as -> ->. auto.
    - destruct i as [|i]; [lia|]. simpl in *. rewrite Nat.sub_0_r in Em2. auto. }
  assert (Hlt: off < lmin /\ nth_error b (N.to_nat off) = Some filter).
  { assert (Hl: (N.to_nat off < length b')%nat) by (apply nth_error_Some; congruence). unfold b' in *.
    destruct (N.ltb_spec lmin (N.of_nat (length b))).
    - rewrite firstn_length in Hl. split; [lia|].
      rewrite <- (firstn_skipn (N.to_nat lmin) b). rewrite nth_error_app1 by (rewrite firstn_length; lia). auto.
    - split; [lia|auto]. }
  destruct Hlt as (Hlt & Hbo).
  destruct (best g l NOLABEL w 0 s) as [e|] eqn:Eb; auto. exfalso.
  apply best_walk in Eb. destruct Eb as (vs & Hvs).
  assert (Hr: In (0, 0%nat) D). { destruct (pv_root _ _ _ _ _ I) as [?|Hr]; auto. apply Hnext in Hr. simpl in Hr. lia. }
  destruct (walk_bits g D next b lmin I Hnext vs 0%nat w 0 Hr Hvs ltac:(lia) Hb) as (_ & Hw).
  destruct (Hw off lo hi) as (n & Hn & Hp); auto; try lia.
  - rewrite N.sub_0_r. auto.
  - rewrite N.sub_0_r. auto.
  - unfold pbit in Hp. rewrite Hbo in Hn. congruence.
Qed.
