From Verif Require Import Base NfaModel ByteSetModel.
From Coq Require Import Sorting.Sorted.
Open Scope N_scope.

(** Membership: the bit of the byte. *)
Definition tb (s : bset) (i : N) : bool := N.testbit (nth (N.to_nat (i / 8)) s 0) (i mod 8).

Lemma test_tb s i : bs_wf s -> i < 256 -> bs_test s i = Ok (tb s i).
Proof.
  intros [Hl _] Hi. unfold bs_test, tb, get. destruct (N.leb_spec 256 i); [lia|].
  rewrite (nth_error_nth' s 0) by lia. reflexivity.
Qed.

Lemma byte_bits_high b i : b < 256 -> 8 <= i -> N.testbit b i = false.
Proof.
  intros Hb Hi. destruct (N.eq_dec b 0) as [->|]; [apply N.bits_0|].
  apply N.bits_above_log2. apply N.log2_lt_pow2; [lia|].
  apply N.lt_le_trans with 256; auto. change 256 with (2 ^ 8). apply N.pow_le_mono_r; lia.
Qed.

Lemma lt_pow2_bits x n : (forall i, n <= i -> N.testbit x i = false) -> x < 2 ^ n.
Proof.
  intros H. destruct (N.eq_dec x 0) as [->|]; [apply N.neq_0_lt_0, N.pow_nonzero; lia|].
  apply N.log2_lt_pow2; [lia|]. destruct (N.lt_ge_cases (N.log2 x) n) as [L|L]; auto.
  specialize (H _ L). rewrite N.bit_log2 in H by auto. discriminate.
Qed.

Lemma nth_upd {A} (l : list A) i j a d : (i < length l)%nat -> nth j (upd l i a) d = if (j =? i)%nat then a else nth j l d.
Proof.
  intros H. destruct (Nat.eqb_spec j i) as [->|].
  - apply nth_error_nth. apply nth_upd_same; auto.
  - destruct (nth_error l j) as [x|] eqn:E.
    + rewrite (nth_error_nth _ _ d E). apply nth_error_nth. rewrite nth_upd_other; auto.
    + apply nth_error_None in E. rewrite !nth_overflow; auto. rewrite upd_length; auto.
Qed.

Lemma Forall_upd {A} (P : A -> Prop) l i a : Forall P l -> P a -> Forall P (upd l i a).
Proof. intros H Ha. revert i. induction H; intros [|i]; simpl; auto. Qed.

Lemma set1_spec s i v : bs_wf s -> i < 256 ->
  exists s', bs_set1 s i v = Ok s' /\ bs_wf s' /\ forall j, j < 256 -> tb s' j = if j =? i then v else tb s j.
Proof.
  intros [Hl Hf] Hi. unfold bs_set1, get, set_at. destruct (N.leb_spec 256 i); [lia|].
  rewrite (nth_error_nth' s 0) by lia. cbn [bind]. rewrite Hl.
  destruct (Nat.ltb_spec (N.to_nat (i / 8)) 32); [|lia].
  set (b := nth (N.to_nat (i / 8)) s 0).
  assert (Hb : b < 256). { rewrite Forall_forall in Hf. apply Hf. apply nth_In. lia. }
  eexists; split; [reflexivity|]. split.
  - split; [rewrite upd_length; auto|]. apply Forall_upd; auto.
    change 256 with (2 ^ 8). apply lt_pow2_bits. intros k Hk. destruct v.
    + rewrite N.setbit_neq by lia. apply byte_bits_high; auto.
    + rewrite N.clearbit_neq by lia. apply byte_bits_high; auto.
  - intros j Hj. unfold tb. rewrite nth_upd by lia.
    destruct (Nat.eqb_spec (N.to_nat (j / 8)) (N.to_nat (i / 8))).
    + destruct (N.eqb_spec j i) as [->|].
      * destruct v; [rewrite N.setbit_eq|rewrite N.clearbit_eq]; auto.
      * rewrite e. fold b. destruct v; [rewrite N.setbit_neq|rewrite N.clearbit_neq]; auto; lia.
    + destruct (N.eqb_spec j i) as [->|]; [lia|]. reflexivity.
Qed.

Lemma set_loop_spec (al v : bool) (end_ : N) : end_ <= 256 -> forall n s beg, bs_wf s -> beg <= end_ ->
  (if al then beg mod 8 = 0 \/ (8 - beg mod 8 < N.of_nat n) else end_ - beg < N.of_nat n) -> (0 < n)%nat ->
  exists s' beg', bs_set_loop al n s beg end_ v = Ok (s', beg') /\ bs_wf s' /\ beg <= beg' <= end_ /\
    (beg' = end_ \/ (al = true /\ beg' mod 8 = 0)) /\ (al = false -> beg' = end_) /\
    forall j, j < 256 -> tb s' j = if (beg <=? j) && (j <? beg') then v else tb s j.
Proof.
  intros He. induction n as [|n IH]; intros s beg Hs Hb Hn Hp; [lia|].
  cbn [bs_set_loop].
  destruct (N.ltb_spec beg end_); cbn [andb].
  2:{ exists s, beg. split; [reflexivity|]. split; auto. split; [lia|]. split; [left; lia|]. split; [lia|].
      intros j Hj. destruct (N.leb_spec beg j), (N.ltb_spec j beg); simpl; auto; lia. }
  destruct (negb al || negb (beg mod 8 =? 0)) eqn:E.
  - destruct (set1_spec s beg v Hs ltac:(lia)) as (s1 & E1 & W1 & T1). rewrite E1; cbn [bind].
    destruct (IH s1 (beg + 1) W1 ltac:(lia)) as (s' & b' & E2 & W2 & B2 & C2 & D2 & T2).
    + destruct al; cbn in E; [|lia]. destruct (N.eqb_spec (beg mod 8) 0); [discriminate|]. lia.
    + destruct al; cbn in E; [|lia]. destruct (N.eqb_spec (beg mod 8) 0); [discriminate|]. lia.
    + exists s', b'. split; auto. split; auto. split; [lia|]. split; auto. split; auto.
      intros j Hj. rewrite T2, T1 by auto.
      destruct (N.leb_spec (beg+1) j), (N.ltb_spec j b'), (N.eqb_spec j beg), (N.leb_spec beg j); simpl; auto; lia.
  - exists s, beg. split; [reflexivity|]. split; auto. split; [lia|].
    destruct al; cbn in E; [|discriminate]. destruct (N.eqb_spec (beg mod 8) 0); [|discriminate].
    split; [right; auto|]. split; [discriminate|].
    intros j Hj. destruct (N.leb_spec beg j), (N.ltb_spec j beg); simpl; auto; lia.
Qed.

Lemma nth_repeat {A} (a : A) n k d : (k < n)%nat -> nth k (repeat a n) d = a.
Proof. revert k; induction n; intros [|k] H; simpl; auto; try lia. apply IHn; lia. Qed.

Lemma fill_spec s f l (v : bool) : bs_wf s -> f <= l -> l <= 32 ->
  exists s', bs_fill s f l (if v then 255 else 0) = Ok s' /\ bs_wf s' /\
    forall j, j < 256 -> tb s' j = if (f * 8 <=? j) && (j <? l * 8) then v else tb s j.
Proof.
  intros [Hl Hf] H1 H2. unfold bs_fill. rewrite Hl.
  destruct (N.ltb_spec l f); [lia|]. destruct (N.ltb_spec (N.of_nat 32) l); [lia|]. cbn [orb].
  eexists; split; [reflexivity|].
  assert (L1 : length (firstn (N.to_nat f) s) = N.to_nat f) by (apply firstn_length_le; lia).
  split.
  - split.
    + rewrite !app_length, repeat_length, L1, skipn_length. lia.
    + rewrite !Forall_app. repeat split.
      * rewrite <- (firstn_skipn (N.to_nat f) s), Forall_app in Hf; tauto.
      * apply Forall_forall. intros x Hx. apply repeat_spec in Hx. subst. destruct v; lia.
      * rewrite <- (firstn_skipn (N.to_nat l) s), Forall_app in Hf; tauto.
  - intros j Hj. unfold tb. set (k := N.to_nat (j / 8)).
    destruct (N.leb_spec (f * 8) j); cbn [andb].
    + rewrite app_nth2 by lia. rewrite L1. destruct (N.ltb_spec j (l * 8)).
      * rewrite app_nth1 by (rewrite repeat_length; lia). rewrite nth_repeat by lia.
        destruct v; [|apply N.bits_0]. change 255 with (N.ones 8). apply N.ones_spec_low. lia.
      * rewrite app_nth2 by (rewrite repeat_length; lia). rewrite repeat_length.
        f_equal. rewrite <- (firstn_skipn (N.to_nat l) s) at 2. rewrite app_nth2 by (rewrite firstn_length_le; lia).
        rewrite firstn_length_le by lia. f_equal. lia.
    + rewrite app_nth1 by lia. f_equal.
      rewrite <- (firstn_skipn (N.to_nat f) s) at 2. rewrite app_nth1 by lia. reflexivity.
Qed.

Lemma set_range_spec s beg end_ (v : bool) : bs_wf s -> beg <= end_ -> end_ <= 256 ->
  exists s', bs_set s beg end_ v = Ok s' /\ bs_wf s' /\
    forall j, j < 256 -> tb s' j = if (beg <=? j) && (j <? end_) then v else tb s j.
Proof.
  intros Hs H1 H2. unfold bs_set.
  destruct (set_loop_spec true v end_ H2 9 s beg Hs H1) as (s1 & b1 & E1 & W1 & B1 & C1 & _ & T1); [|lia|].
  { destruct (N.eq_dec (beg mod 8) 0); auto. right. lia. }
  rewrite E1; cbn [bind].
  replace ((two64 + end_ - b1) mod two64) with (end_ - b1) by (unfold two64; lia).
  destruct (N.ltb_spec 0 ((end_ - b1) / 8)).
  - assert (Hm : b1 mod 8 = 0) by lia.
    destruct (fill_spec s1 (b1 / 8) (end_ / 8) v W1 ltac:(lia) ltac:(lia)) as (s2 & E2 & W2 & T2).
    rewrite E2; cbn [bind].
    destruct (set_loop_spec false v end_ H2 9 s2 (end_ / 8 * 8) W2 ltac:(lia)) as (s3 & b3 & E3 & W3 & B3 & _ & D3 & T3);
      [lia|lia|].
    rewrite E3; cbn [bind]. exists s3; split; [auto|split; [auto|]].
    intros j Hj. rewrite T3, T2, T1 by auto. rewrite (D3 eq_refl) in *.
    replace (b1 / 8 * 8) with b1 by lia.
    destruct (N.leb_spec (end_ / 8 * 8) j), (N.ltb_spec j end_), (N.leb_spec b1 j), (N.ltb_spec j (end_ / 8 * 8)),
      (N.leb_spec beg j), (N.ltb_spec j b1); simpl; auto; lia.
  - cbn [bind].
    destruct (set_loop_spec false v end_ H2 9 s1 b1 W1 ltac:(lia)) as (s3 & b3 & E3 & W3 & B3 & _ & D3 & T3);
      [lia|lia|].
    rewrite E3; cbn [bind]. exists s3; split; [auto|split; [auto|]].
    intros j Hj. rewrite T3, T1 by auto. rewrite (D3 eq_refl) in *.
    destruct (N.leb_spec b1 j), (N.ltb_spec j end_), (N.leb_spec beg j), (N.ltb_spec j b1); simpl; auto; lia.
Qed.

(** equality and order *)
Lemma byte_ext a b : a < 256 -> b < 256 -> (forall i, i < 8 -> N.testbit a i = N.testbit b i) -> a = b.
Proof.
  intros Ha Hb H. apply N.bits_inj. intros i. destruct (N.lt_ge_cases i 8); auto.
  rewrite !byte_bits_high; auto.
Qed.

Lemma tb_ext s t : bs_wf s -> bs_wf t -> (forall i, i < 256 -> tb s i = tb t i) -> s = t.
Proof.
  intros [L1 F1] [L2 F2] H. apply nth_ext with (d := 0) (d' := 0); [congruence|].
  intros k Hk. rewrite Forall_forall in F1, F2. apply byte_ext.
  - apply F1, nth_In; lia.
  - apply F2, nth_In; lia.
  - intros i Hi. specialize (H (8 * N.of_nat k + i) ltac:(lia)). unfold tb in H.
    replace ((8 * N.of_nat k + i) / 8) with (N.of_nat k) in H by lia.
    replace ((8 * N.of_nat k + i) mod 8) with i in H by lia. rewrite Nat2N.id in H. exact H.
Qed.

Lemma compare_eq s t : length s = length t -> bs_compare s t = Eq -> s = t.
Proof.
  revert t. induction s as [|a s IH]; intros [|b t]; simpl; intros L H; try discriminate; auto.
  destruct (N.compare_spec a b); try discriminate. subst. f_equal. apply IH; auto.
Qed.
Lemma compare_refl s : bs_compare s s = Eq.
Proof. induction s; simpl; auto. rewrite N.compare_refl; auto. Qed.
Lemma compare_sym s t : length s = length t -> bs_compare t s = CompOpp (bs_compare s t).
Proof.
  revert t. induction s as [|a s IH]; intros [|b t]; simpl; intros L; try discriminate; auto.
  rewrite (N.compare_antisym a b). destruct (a ?= b); simpl; auto.
Qed.
Lemma compare_trans s t u : length s = length t -> length t = length u ->
  bs_compare s t = Lt -> bs_compare t u = Lt -> bs_compare s u = Lt.
Proof.
  revert t u. induction s as [|a s IH]; intros [|b t] [|c u]; simpl; intros L1 L2 H1 H2; try discriminate; auto.
  destruct (N.compare_spec a b), (N.compare_spec b c); subst; try discriminate.
  - rewrite N.compare_refl. apply (IH t u); auto.
  - destruct (N.compare_spec b c); auto; lia.
  - destruct (N.compare_spec a c); auto; lia.
  - destruct (N.compare_spec a c); auto; lia.
Qed.

(** bitwise operators *)
Lemma map2_length f s t : length s = length t -> length (bs_map2 f s t) = length s.
Proof. revert t. induction s; intros [|b t]; simpl; intros; try discriminate; auto. Qed.
Lemma map2_nth f s t k : length s = length t -> (k < length s)%nat -> nth k (bs_map2 f s t) 0 = f (nth k s 0) (nth k t 0).
Proof.
  revert t k. induction s; intros [|b t] [|k]; simpl; intros; try discriminate; try lia; auto. apply IHs; lia.
Qed.

Lemma map2_spec f g s t : (forall a b i, N.testbit (f a b) i = g (N.testbit a i) (N.testbit b i)) ->
  g false false = false -> bs_wf s -> bs_wf t ->
  bs_wf (bs_map2 f s t) /\ forall i, i < 256 -> tb (bs_map2 f s t) i = g (tb s i) (tb t i).
Proof.
  intros Hf Hg [L1 F1] [L2 F2]. split.
  - split; [rewrite map2_length; congruence|]. apply Forall_forall. intros x Hx.
    apply (In_nth _ _ 0) in Hx as (k & Hk & <-). rewrite map2_length in Hk by congruence.
    rewrite map2_nth by congruence. rewrite Forall_forall in F1, F2.
    change 256 with (2 ^ 8). apply lt_pow2_bits. intros i Hi. rewrite Hf.
    rewrite !byte_bits_high; auto; [apply F2|apply F1]; apply nth_In; lia.
  - intros i Hi. unfold tb. rewrite map2_nth by (try congruence; lia). apply Hf.
Qed.

Lemma not_spec s : bs_wf s -> bs_wf (bs_not s) /\ forall i, i < 256 -> tb (bs_not s) i = negb (tb s i).
Proof.
  intros [L F]. split.
  - split; [unfold bs_not; rewrite map_length; auto|]. unfold bs_not. apply Forall_map. eapply Forall_impl; [|exact F].
    simpl; intros; lia.
  - intros i Hi. unfold tb, bs_not. rewrite (nth_indep _ 0 (255 - 0)) by (rewrite map_length; lia).
    rewrite map_nth. set (b := nth _ _ _).
    assert (Hb : b < 256) by (rewrite Forall_forall in F; apply F, nth_In; lia).
    replace (255 - b) with (N.lnot b 8). { apply N.lnot_spec_low. lia. }
    destruct (N.eq_dec b 0) as [->|]; [reflexivity|].
    rewrite N.lnot_sub_low; [reflexivity|]. apply N.log2_lt_pow2; [lia|]. change (2 ^ 8) with 256. lia.
Qed.

(** iteration *)
Lemma ctz_decomp p : exists m, N.pos p = 2 ^ ctz_pos p * (2 * m + 1).
Proof.
  induction p as [p IH|p IH|]; cbn [ctz_pos].
  - exists (N.pos p). rewrite N.pow_0_r. lia.
  - destruct IH as [m IH]. exists m. replace (N.pos p~0) with (2 * N.pos p) by lia. rewrite IH.
    rewrite N.pow_add_r. change (2 ^ 1) with 2. lia.
  - exists 0. reflexivity.
Qed.

Lemma lsb_spec p : N.pos p < two64 ->
  N.land (N.pos p) ((two64 - N.pos p) mod two64) = 2 ^ ctz_pos p /\ ctz_pos p < 64.
Proof.
  intros H. destruct (ctz_decomp p) as [m Em]. set (k := ctz_pos p) in *.
  assert (Hk : k < 64).
  { apply (N.pow_lt_mono_r_iff 2); [lia|]. change (2 ^ 64) with two64.
    apply N.le_lt_trans with (N.pos p); auto. rewrite Em. nia. }
  split; auto. rewrite N.mod_small by lia.
  assert (E64 : two64 = 2 ^ k * (2 * 2 ^ (63 - k))).
  { change two64 with (2 ^ 64). replace 64 with (k + (1 + (63 - k))) at 1 by lia.
    rewrite !N.pow_add_r. change (2 ^ 1) with 2. lia. }
  assert (Hm : m < 2 ^ (63 - k)). { rewrite Em, E64 in H. assert (2 ^ k <> 0) by (apply N.pow_nonzero; lia). nia. }
  set (q := 2 ^ (63 - k) - 1 - m).
  replace (two64 - N.pos p) with (2 ^ k * (2 * q + 1)).
  2:{ rewrite Em, E64. unfold q. nia. }
  rewrite Em, !(N.mul_comm (2 ^ k)), <- !N.shiftl_mul_pow2, <- N.shiftl_land.
  replace (N.land (2 * m + 1) (2 * q + 1)) with (2 * N.land m q + 1).
  2:{ clear. apply N.bits_inj. intros j. rewrite N.land_spec. destruct (N.eq_dec j 0) as [->|Hj].
      - rewrite !N.testbit_odd_0. reflexivity.
      - replace j with (N.succ (N.pred j)) by lia. rewrite !N.testbit_odd_succ by lia. rewrite N.land_spec. reflexivity. }
  replace (N.land m q) with 0; [rewrite N.shiftl_mul_pow2; lia|].
  destruct (N.eq_dec m 0) as [->|]; [reflexivity|].
  assert (L : N.log2 m < 63 - k) by (apply N.log2_lt_pow2; lia).
  replace q with (N.lnot m (63 - k)); [symmetry; apply N.land_lnot_diag_low; auto|].
  rewrite N.lnot_sub_low by auto. rewrite N.ones_equiv. unfold q. lia.
Qed.

Lemma ctz_bits p j : N.testbit (N.pos p) (ctz_pos p) = true /\ (j < ctz_pos p -> N.testbit (N.pos p) j = false).
Proof.
  destruct (ctz_decomp p) as [m Em]. rewrite Em, N.mul_comm. split.
  - rewrite N.mul_pow2_bits_high by lia. rewrite N.sub_diag.
    destruct m; reflexivity.
  - intros H. apply N.mul_pow2_bits_low. auto.
Qed.

Lemma word_bits_spec i : forall n w k, w < two64 -> (forall j, j < k -> N.testbit w j = false) -> k <= 64 ->
  64 - k <= N.of_nat n ->
  exists L, word_bits n i w = Ok L /\ StronglySorted N.lt L /\
    (forall x, In x L <-> exists j, x = 64 * N.of_nat i + j /\ N.testbit w j = true) /\
    Forall (fun x => 64 * N.of_nat i + k <= x < 64 * N.of_nat i + 64) L.
Proof.
  assert (Hi : forall w j, w < two64 -> 64 <= j -> N.testbit w j = false).
  { intros w j Hw Hj. destruct (N.eq_dec w 0) as [->|]; [apply N.bits_0|].
    apply N.bits_above_log2. apply N.log2_lt_pow2; [lia|]. apply N.lt_le_trans with two64; auto.
    change two64 with (2 ^ 64). apply N.pow_le_mono_r; lia. }
  induction n as [|n IH]; intros w k Hw Hk Hk64 Hn.
  - destruct w as [|p].
    + exists []. split; [reflexivity|]. split; [constructor|]. split; [|constructor].
      intros x; split; [intros []|]. intros (j & _ & H). rewrite N.bits_0 in H; discriminate.
    + exfalso. destruct (ctz_bits p 0) as [H _]. destruct (lsb_spec p Hw) as [_ H2].
      rewrite Hk in H; [discriminate|lia].
  - destruct w as [|p].
    + exists []. split; [reflexivity|]. split; [constructor|]. split; [|constructor].
      intros x; split; [intros []|]. intros (j & _ & H). rewrite N.bits_0 in H; discriminate.
    + cbn [word_bits]. destruct (lsb_spec p Hw) as [E Hc]. rewrite E.
      set (c := ctz_pos p) in *.
      assert (Hck : k <= c). { destruct (N.lt_ge_cases c k); auto. destruct (ctz_bits p 0) as [H1 _]. fold c in H1. rewrite Hk in H1 by auto. discriminate. }
      assert (B : forall j, N.testbit (N.lxor (N.pos p) (2 ^ c)) j = N.testbit (N.pos p) j && negb (j =? c)).
      { intros j. rewrite N.lxor_spec. destruct (N.eqb_spec j c) as [->|].
        - pose proof (proj1 (ctz_bits p 0)) as H1. fold c in H1. rewrite N.pow2_bits_true, H1. reflexivity.
        - rewrite N.pow2_bits_false by auto. rewrite andb_true_r. apply xorb_false_r. }
      destruct (IH (N.lxor (N.pos p) (2 ^ c)) (c + 1)) as (L & EL & SL & IL & FL).
      * change two64 with (2 ^ 64). apply lt_pow2_bits. intros j Hj. rewrite B, Hi; auto.
      * intros j Hj. rewrite B. destruct (N.eqb_spec j c); [apply andb_false_r|].
        rewrite (proj2 (ctz_bits p j)); auto. fold c. lia.
      * lia.
      * lia.
      * rewrite EL. cbn [bind]. eexists; split; [reflexivity|].
        rewrite N.shiftl_mul_pow2. change (2 ^ 6) with 64. rewrite (N.mul_comm _ 64).
        split; [|split].
        -- constructor; auto. eapply Forall_impl; [|exact FL]. simpl; intros; lia.
        -- intros x. split.
           ++ intros [<-|H]; [exists c; split; [lia|apply (ctz_bits p 0)]|].
              apply IL in H as (j & -> & H). rewrite B in H. apply andb_prop in H. exists j; tauto.
           ++ intros (j & -> & H). destruct (N.eq_dec j c) as [->|]; [left; lia|]. right. apply IL.
              exists j. split; auto. rewrite B, H. destruct (N.eqb_spec j c); auto.
        -- constructor; [lia|]. eapply Forall_impl; [|exact FL]. simpl; intros; lia.
Qed.

Lemma le_num_testbit l i : Forall (fun b => b < 256) l ->
  N.testbit (le_num l) i = N.testbit (nth (N.to_nat (i / 8)) l 0) (i mod 8).
Proof.
  intros H. revert i. induction H as [|b l Hb Hl IH]; intros i; cbn [le_num].
  - rewrite N.bits_0. destruct (N.to_nat (i / 8)); symmetry; apply N.bits_0.
  - replace (b + 256 * le_num l) with (N.lor b (N.shiftl (le_num l) 8)).
    2:{ rewrite N.shiftl_mul_pow2. change (2 ^ 8) with 256.
        assert (D : N.land b (le_num l * 256) = 0).
        { apply N.bits_inj_0. intros j. rewrite N.land_spec. destruct (N.lt_ge_cases j 8).
          - change 256 with (2 ^ 8). rewrite N.mul_pow2_bits_low by auto. apply andb_false_r.
          - rewrite byte_bits_high; auto. }
        rewrite <- N.lxor_lor by auto. rewrite <- N.add_nocarry_lxor by auto. lia. }
    rewrite N.lor_spec. destruct (N.lt_ge_cases i 8).
    + rewrite N.shiftl_spec_low by auto. replace (i / 8) with 0 by lia. rewrite N.mod_small by auto. apply orb_false_r.
    + rewrite byte_bits_high by auto. rewrite N.shiftl_spec_high' by auto. cbn [orb]. rewrite IH.
      replace (N.to_nat (i / 8)) with (S (N.to_nat ((i - 8) / 8))) by lia. cbn [nth].
      replace ((i - 8) mod 8) with (i mod 8) by lia. reflexivity.
Qed.

Lemma le_num_bound l : Forall (fun b => b < 256) l -> le_num l < 256 ^ N.of_nat (length l).
Proof.
  induction 1 as [|b l Hb Hl IH]; [reflexivity|]. cbn [le_num length].
  rewrite Nat2N.inj_succ, N.pow_succ_r'. lia.
Qed.

Lemma word_testbit s i j : bs_wf s -> (i < 4)%nat -> j < 64 -> N.testbit (bs_word s i) j = tb s (64 * N.of_nat i + j).
Proof.
  intros [L F] Hi Hj. unfold bs_word, tb.
  assert (F2 : Forall (fun b => b < 256) (skipn (8 * i) s)) by (rewrite <- (firstn_skipn (8*i) s), Forall_app in F; tauto).
  rewrite le_num_testbit. 2:{ rewrite <- (firstn_skipn 8 (skipn (8*i) s)), Forall_app in F2; tauto. }
  replace ((64 * N.of_nat i + j) mod 8) with (j mod 8) by lia. f_equal.
  replace (N.to_nat ((64 * N.of_nat i + j) / 8)) with (8 * i + N.to_nat (j / 8))%nat by lia.
  set (k := N.to_nat (j / 8)). assert (k < 8)%nat by lia.
  transitivity (nth k (skipn (8 * i) s) 0).
  - rewrite <- (firstn_skipn 8 (skipn (8 * i) s)) at 2. rewrite app_nth1; auto.
    rewrite firstn_length, skipn_length. lia.
  - clear. revert s. induction (8 * i)%nat as [|m IH]; intros s; simpl; auto. destruct s; simpl; auto. destruct k; auto.
Qed.

Lemma word_bound s i : bs_wf s -> bs_word s i < two64.
Proof.
  intros [L F]. unfold bs_word.
  assert (F2 : Forall (fun b => b < 256) (skipn (8 * i) s)) by (rewrite <- (firstn_skipn (8*i) s), Forall_app in F; tauto).
  assert (F3 : Forall (fun b => b < 256) (firstn 8 (skipn (8 * i) s))) by (rewrite <- (firstn_skipn 8 (skipn (8*i) s)), Forall_app in F2; tauto).
  eapply N.lt_le_trans; [apply le_num_bound; auto|]. change two64 with (256 ^ 8). apply N.pow_le_mono_r; [lia|].
  rewrite firstn_length. lia.
Qed.

Lemma sorted_app_lt l1 l2 : StronglySorted N.lt l1 -> StronglySorted N.lt l2 ->
  (forall a b, In a l1 -> In b l2 -> a < b) -> StronglySorted N.lt (l1 ++ l2).
Proof.
  induction 1 as [|a l Hs IH Ha]; simpl; auto. intros H2 H. constructor.
  - apply IH; auto. - rewrite Forall_app; split; auto. apply Forall_forall. auto.
Qed.

Lemma for_each_spec s : bs_wf s ->
  exists L, for_each_set_bit s = Ok L /\ StronglySorted N.lt L /\ forall x, In x L <-> x < 256 /\ tb s x = true.
Proof.
  intros Hs. unfold for_each_set_bit.
  assert (W : forall i, (i < 4)%nat -> exists L, word_bits 64 i (bs_word s i) = Ok L /\ StronglySorted N.lt L /\
      (forall x, In x L <-> 64 * N.of_nat i <= x < 64 * N.of_nat i + 64 /\ tb s x = true)).
  { intros i Hi. destruct (word_bits_spec i 64 (bs_word s i) 0 (word_bound s i Hs)) as (L & E & S & I & F); try lia.
    exists L. split; auto. split; auto. intros x. rewrite Forall_forall in F. split.
    - intros H. pose proof (F x H). apply I in H as (j & -> & H). split; [lia|].
      rewrite <- word_testbit; auto; lia.
    - intros [H1 H2]. apply I. exists (x - 64 * N.of_nat i). split; [lia|].
      rewrite word_testbit by (auto; lia). replace (64 * N.of_nat i + (x - 64 * N.of_nat i)) with x by lia. auto. }
  destruct (W 0%nat) as (L0 & E0 & S0 & I0); [lia|]. destruct (W 1%nat) as (L1 & E1 & S1 & I1); [lia|].
  destruct (W 2%nat) as (L2 & E2 & S2 & I2); [lia|]. destruct (W 3%nat) as (L3 & E3 & S3 & I3); [lia|].
  rewrite E0, E1, E2, E3. cbn [bind]. eexists; split; [reflexivity|]. split.
  - apply sorted_app_lt; auto; [apply sorted_app_lt; auto; [apply sorted_app_lt; auto|]|].
    + intros a b Ha Hb. apply I2 in Ha. apply I3 in Hb. lia.
    + intros a b Ha Hb. apply I1 in Ha. apply in_app_or in Hb as [Hb|Hb]; [apply I2 in Hb|apply I3 in Hb]; lia.
    + intros a b Ha Hb. apply I0 in Ha. apply in_app_or in Hb as [Hb|Hb]; [apply I1 in Hb; lia|].
      apply in_app_or in Hb as [Hb|Hb]; [apply I2 in Hb|apply I3 in Hb]; lia.
  - intros x. rewrite !in_app_iff, I0, I1, I2, I3. simpl N.of_nat. split.
    + intuition lia.
    + intros [H1 H2]. assert (x < 64 \/ 64 <= x < 128 \/ 128 <= x < 192 \/ 192 <= x) by lia. intuition lia.
Qed.

(** * Smallest transition *)
Definition only (s : N) (i : N) (P : N -> Prop) := forall x, x < i -> (N.testbit s x = true <-> P x).

Lemma smallest_loop_spec s : forall n i ty low high, N.of_nat n + i = 256 ->
  match ty with
  | TyNone => only s i (fun _ => False)
  | TyOne => only s i (fun x => x = low) /\ low = high /\ low < i
  | TyRange => only s i (fun x => low <= x <= high) /\ low < high /\ high < i
  | TyTwo => only s i (fun x => x = low \/ x = high) /\ low < high /\ high < i
  end ->
  match smallest_loop s (map N.of_nat (seq (N.to_nat i) n)) ty low high with
  | None => s <> 0
  | Some (TyNone, _, _) => only s 256 (fun _ => False)
  | Some (TyOne, l, h) => only s 256 (fun x => x = l) /\ l < 256
  | Some (TyRange, l, h) => only s 256 (fun x => l <= x <= h) /\ l < h /\ h < 256
  | Some (TyTwo, l, h) => only s 256 (fun x => x = l \/ x = h) /\ l < h /\ h < 256
  end.
Proof.
  induction n as [|n IH]; intros i ty low high Hi H.
  - replace i with 256 in * by lia. cbn [seq map smallest_loop].
    destruct ty; intuition (try lia).
  - cbn [seq map smallest_loop]. rewrite N2Nat.id. replace (S (N.to_nat i)) with (N.to_nat (i + 1)) by lia.
    assert (St : forall P Q, only s i P -> (N.testbit s i = true <-> Q i) -> (forall x, x < i -> (P x <-> Q x)) -> only s (i + 1) Q).
    { intros P Q H1 H2 H3 x Hx. destruct (N.eq_dec x i) as [->|]; auto.
      pose proof (H1 x ltac:(lia)) as H4. pose proof (H3 x ltac:(lia)) as H5. tauto. }
    destruct (N.testbit s i) eqn:Eb.
    + assert (Hs0 : s <> 0) by (intros ->; rewrite N.bits_0 in Eb; discriminate).
      destruct ty.
      * apply IH; [lia|]. split; [|lia]. eapply St; [exact H| |]; [tauto|]. cbv beta; intros; lia.
      * destruct H as (H & <- & Hl). rewrite N.mod_small by lia. destruct (N.eqb_spec (low + 1) i).
        -- apply IH; [lia|]. split; [|lia]. eapply St; [exact H| |]; [split; [lia|auto]|]. cbv beta; intros; lia.
        -- apply IH; [lia|]. split; [|lia]. eapply St; [exact H| |]; [split; [lia|auto]|]. cbv beta; intros; lia.
      * destruct H as (H & Hl & Hh). rewrite N.mod_small by lia. destruct (N.eqb_spec (high + 1) i); auto.
        apply IH; [lia|]. split; [|lia]. eapply St; [exact H| |]; [split; [lia|auto]|]. cbv beta; intros; lia.
      * auto.
    + destruct ty; (apply IH; [lia|]).
      * eapply St; [exact H| |]; [intuition congruence|]. intros; tauto.
      * destruct H as (H & <- & Hl). split; [|lia]. eapply St; [exact H| |]; [split; [congruence|lia]|]. intros; tauto.
      * destruct H as (H & Hl & Hh). split; [|lia]. eapply St; [exact H| |]; [split; [congruence|lia]|]. intros; tauto.
      * destruct H as (H & Hl & Hh). split; [|lia]. eapply St; [exact H| |]; [split; [congruence|lia]|]. intros; tauto.
Qed.

Lemma getSmallest_allowed s b : b < 256 -> allowed (getSmallest s) b = N.testbit s b.
Proof.
  intros Hb. unfold getSmallest, all_bytes.
  pose proof (smallest_loop_spec s 256 0 TyNone 0 0 eq_refl) as H. change (N.to_nat 0) with O in H.
  destruct (smallest_loop s (map N.of_nat (seq 0 256)) TyNone 0 0) as [[[ty l] h]|]; [|reflexivity].
  specialize (H ltac:(intros x Hx; lia)).
  destruct ty; cbn [allowed].
  - reflexivity.
  - destruct H as (H & _). specialize (H b Hb). apply eq_true_iff_eq. rewrite H. apply N.eqb_eq.
  - destruct H as (H & _). specialize (H b Hb). apply eq_true_iff_eq. rewrite H, andb_true_iff, !N.leb_le. tauto.
  - destruct H as (H & _). specialize (H b Hb). apply eq_true_iff_eq. rewrite H, orb_true_iff, !N.eqb_eq. tauto.
Qed.
