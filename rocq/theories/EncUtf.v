(** The code point sets of the UTF encoders: writeRange and the blocks it takes. *)
From Verif Require Import Base UtfModel UtfProofs RangeSetModel RangeSetProofs ByteSetModel ByteSetProofs EncModel EncProofs.
From Coq Require Import Sorting.Sorted Sorting.Permutation.
Open Scope N_scope.

Lemma grow wa b0 wb : bytes (wa ++ b0 :: wb) ->
  exists v, mapM single (wa ++ b0 :: wb) = Ok v /\ Forall bs_wf v /\ length v = length (wa ++ b0 :: wb) /\
    (forall w, vmatch v w <-> w = wa ++ b0 :: wb) /\
    forall lo hi, lo <= hi -> hi <= 256 ->
      exists s s' v', get v (length wa) = Ok s /\ bs_set s lo hi true = Ok s' /\ set_at v (length wa) s' = Ok v' /\
        Forall bs_wf v' /\ length v' = length (wa ++ b0 :: wb) /\
        forall w, vmatch v' w <-> exists b, w = wa ++ b :: wb /\ (b = b0 \/ lo <= b < hi).
Proof.
  intros Hb. destruct (mapM_single _ Hb) as (v & E & W & L & M). exists v. sp; auto; try (apply M; auto).
  pose proof Hb as Hb'. apply Forall_app in Hb' as [Ha Hb']. apply Forall_cons_iff in Hb' as [H0 Hbb].
  destruct (mapM_single wa Ha) as (va & Ea & Wa & La & Ma). destruct (mapM_single wb Hbb) as (vb & Eb & Wb & Lb & Mb).
  destruct (single_spec b0 H0) as (s & Es & Ws & Ts).
  assert (Ev : mapM single (wa ++ b0 :: wb) = Ok (va ++ s :: vb)).
  { apply mapM_app; auto. simpl. rewrite Es. cbn [bind]. rewrite Eb. reflexivity. }
  rewrite Ev in E. injection E as <-. intros lo hi H1 H2.
  destruct (set_range_spec s lo hi true Ws H1 H2) as (s' & Es' & Ws' & Ts'). exists s, s', (va ++ s' :: vb). rewrite <- La.
  split; [apply get_mid|]. split; [auto|]. split; [apply set_at_mid|]. split.
  { apply Forall_app in W as [? W]. apply Forall_cons_iff in W as [? ?]. apply Forall_app; auto. }
  split; [rewrite app_length in *; simpl in *; lia|].
  intros w. rewrite vmatch_split. split.
  - intros (x & b & y & -> & Hx & (Hb1 & Ht) & Hy). apply Ma in Hx as ->. apply Mb in Hy as ->. exists b. split; auto.
    rewrite Ts' in Ht by auto. destruct ((lo <=? b) && (b <? hi)) eqn:E2; [right; lia|]. rewrite Ts in Ht by auto. lia.
  - intros (b & -> & Hcase). exists wa, b, wb. assert (b < 256) by (destruct Hcase; lia).
    sp; auto; [apply Ma; auto| |apply Mb; auto].
    rewrite Ts' by auto. destruct ((lo <=? b) && (b <? hi)) eqn:E2; auto. rewrite Ts by auto. destruct Hcase; [|lia]. subst. apply N.eqb_refl.
Qed.

(** What one round of writeRange does, for code points between [lo] and [blimit]. *)
Definition block_ok (c : charset) (len : nat) (lo blimit : N) : Prop :=
  forall l h, lo <= l -> l < N.min h blimit -> length (base_write c (Z.of_N l)) = len /\
    exists v v' l', mapM single (base_write c (Z.of_N l)) = Ok v /\
      writeRangeBlock c v (l + 1) h len blimit = Ok (v', l') /\ l < l' <= N.min h blimit /\
      Forall bs_wf v' /\ length v' = len /\ (1 <= len <= 4)%nat /\
      forall w, vmatch v' w <-> exists x, l <= x < l' /\ base_write c (Z.of_N x) = w.

(** The common part: all code points from l+1 on in the block differ in one byte only. *)
Lemma block_finish c len l m wa b0 wb lo hi : base_write c (Z.of_N l) = wa ++ b0 :: wb ->
  lo <= hi -> hi <= 256 -> l + 1 <= m -> hi - lo = m - (l + 1) ->
  (forall x, l + 1 <= x < m -> base_write c (Z.of_N x) = wa ++ (lo + (x - (l + 1))) :: wb) ->
  forall v', (forall w, vmatch v' w <-> exists b, w = wa ++ b :: wb /\ (b = b0 \/ lo <= b < hi)) ->
  length v' = len ->
  forall w, vmatch v' w <-> exists x, l <= x < m /\ base_write c (Z.of_N x) = w.
Proof.
  intros E0 H1 H2 H3 H4 Hx v' Hv _ w. rewrite Hv. split.
  - intros (b & -> & [->|Hb]).
    + exists l. split; [lia|auto].
    + exists (l + 1 + (b - lo)). split; [lia|]. rewrite Hx by lia. repeat f_equal. lia.
  - intros (x & Hl & <-). destruct (N.eq_dec x l) as [->|].
    + exists b0. auto.
    + rewrite Hx by lia. eexists. split; [reflexivity|]. lia.
Qed.

Lemma base_write8 x : base_write UTF8 (Z.of_N x) = u8 x.
Proof. cbn [base_write]. unfold cp_to_utf8. destruct (Z.ltb_spec (Z.of_N x) 0); [lia|]. rewrite N2Z.id. apply utf8_bytes_u8. Qed.
Lemma base_write16 le x : base_write (UTF16 le) (Z.of_N x) = u16 le x.
Proof. cbn [base_write]. unfold cp_to_utf16. destruct (Z.ltb_spec (Z.of_N x) 0); [lia|]. rewrite N2Z.id. apply utf16_bytes_u16. Qed.
Lemma base_write32 le x : base_write (UTF32 le) (Z.of_N x) = u32 le x.
Proof. cbn [base_write]. unfold cp_to_utf32. destruct (Z.ltb_spec (Z.of_N x) 0); [lia|]. rewrite N2Z.id. apply utf32_bytes_u32. Qed.

Lemma or_128 x : N.lor (x mod 64) 128 = 128 + x mod 64.
Proof. rewrite N.lor_comm. apply lor_top6. reflexivity. Qed.

Lemma block8_1 : block_ok UTF8 1 0 128.
Proof.
  intros l h Hl Hm. assert (W : forall x, x < 128 -> base_write UTF8 (Z.of_N x) = [] ++ x :: []).
  { intros x Hx. rewrite base_write8. unfold u8. bcase. reflexivity. }
  rewrite (W l) by lia. split; [reflexivity|].
  destruct (grow [] l []) as (v & E & Wv & Lv & Mv & G); [repeat constructor; lia|].
  destruct (G (l + 1) (N.min h 128)) as (s & s' & v' & E1 & E2 & E3 & Wv' & Lv' & Mv'); [lia|lia|].
  exists v, v', (N.min h 128). cbn [writeRangeBlock]. unfold utf8_block. cbn [Nat.eqb Nat.sub length] in *.
  rewrite E1. cbn [bind]. rewrite E2. cbn [bind]. rewrite E3. cbn [bind].
  sp; auto; try lia.
  - intros H. eapply (block_finish UTF8 1 l (N.min h 128) [] l [] (l + 1) (N.min h 128)); eauto; try lia; [apply W; lia|].
    intros x Hx. rewrite (W x) by lia. repeat f_equal. lia.
  - intros H. eapply (block_finish UTF8 1 l (N.min h 128) [] l [] (l + 1) (N.min h 128)); eauto; try lia; [apply W; lia|].
    intros x Hx. rewrite (W x) by lia. repeat f_equal. lia.
Qed.

Lemma block8_n len lo blimit (pre : N -> list N) : (2 <= len <= 4)%nat ->
  (forall x, lo <= x < blimit -> u8 x = pre (x / 64) ++ [128 + x mod 64] /\ bytes (pre (x / 64)) /\ length (pre (x / 64)) = (len - 1)%nat) ->
  block_ok UTF8 len lo blimit.
Proof.
  intros Hlen W l h Hl Hm. destruct (W l) as (E0 & B0 & L0); [lia|].
  rewrite base_write8, E0. split; [rewrite app_length; simpl; lia|].
  destruct (grow (pre (l / 64)) (128 + l mod 64) []) as (v & E & Wv & Lv & Mv & G).
  { apply Forall_app. split; auto. repeat constructor. lia. }
  assert (LL : length (pre (l / 64) ++ [128 + l mod 64]) = len) by (rewrite app_length; simpl; lia).
  cbn [writeRangeBlock]. unfold utf8_block. destruct (Nat.eqb_spec len 1); [lia|].
  destruct ((l + 1 <? N.min h blimit) && (0 <? (l + 1) mod 64)) eqn:C.
  - set (m := N.min (N.min h blimit) (((l + 1) / 64 + 1) * 64)) in *.
    assert (Hb : l + 1 < m /\ m <= N.min h blimit /\ m <= ((l + 1) / 64 + 1) * 64) by (unfold m; lia). clearbody m.
    rewrite !land_63, !or_128.
    destruct (G (128 + (l + 1) mod 64) (128 + (m - 1) mod 64 + 1)) as (s & s' & v' & E1 & E2 & E3 & Wv' & Lv' & Mv'); [lia|lia|].
    exists v, v', m. rewrite <- L0. rewrite E1. cbn [bind]. rewrite E2. cbn [bind]. rewrite E3. cbn [bind].
    split; [auto|]. split; [auto|]. split; [lia|]. split; [auto|]. split; [lia|]. split; [lia|].
    apply (block_finish UTF8 len l m (pre (l / 64)) (128 + l mod 64) [] (128 + (l + 1) mod 64) (128 + (m - 1) mod 64 + 1)); auto; try lia;
      [rewrite base_write8; auto|].
    intros x Hx. rewrite base_write8. destruct (W x) as (-> & _); [lia|]. f_equal; [f_equal; lia|]. f_equal. lia.
  - exists v, v, (l + 1). split; [auto|]. split; [auto|]. split; [lia|]. split; [auto|]. split; [lia|]. split; [lia|].
    intros w. rewrite Mv. split; [intros ->; exists l; split; [lia|rewrite base_write8; auto]|].
    intros (x & Hx & <-). replace x with l by lia. rewrite base_write8. auto.
Qed.

Lemma block8_2 : block_ok UTF8 2 128 2048.
Proof.
  apply (block8_n 2 128 2048 (fun q => [192 + q])); [lia|]. intros x Hx. unfold u8. do 2 bcase. sp; auto.
  repeat constructor. lia.
Qed.
Lemma block8_3 lo hi : 2048 <= lo -> hi <= 55296 \/ 57344 <= lo /\ hi <= 65536 -> block_ok UTF8 3 lo hi.
Proof.
  intros H1 H2. apply (block8_n 3 lo hi (fun q => [224 + q / 64; 128 + q mod 64])); [lia|]. intros x Hx. unfold u8. do 2 bcase.
  replace ((x <? 55296) || ((57344 <=? x) && (x <? 65536))) with true by lia. sp; auto.
  - cbn [app]. leq.
  - repeat constructor; lia.
Qed.
Lemma block8_4 : block_ok UTF8 4 65536 1114112.
Proof.
  apply (block8_n 4 _ _ (fun q => [240 + q / 4096; 128 + q / 64 mod 64; 128 + q mod 64])); [lia|]. intros x Hx. unfold u8. do 2 bcase.
  replace ((x <? 55296) || ((57344 <=? x) && (x <? 65536))) with false by lia.
  replace ((65536 <=? x) && (x <? 1114112)) with true by lia. sp; auto.
  - cbn [app]. leq.
  - repeat constructor; lia.
Qed.

(** UTF-16 and UTF-32: the low byte varies, at position [pos]. *)
Lemma blockn c len lo blimit pos (pre suf : N -> list N) : (1 <= len <= 4)%nat ->
  (forall v l h, writeRangeBlock c v l h len blimit = utfn_block pos v l h blimit) ->
  (forall x, lo <= x < blimit -> base_write c (Z.of_N x) = pre (x / 256) ++ (x mod 256) :: suf (x / 256) /\
     bytes (pre (x / 256)) /\ bytes (suf (x / 256)) /\
     length (pre (x / 256)) = pos /\ len = S (pos + length (suf (x / 256)))) ->
  block_ok c len lo blimit.
Proof.
  intros Hlen HW W l h Hl Hm. destruct (W l) as (E0 & B0 & B1 & L0 & L1); [lia|].
  rewrite E0. split; [rewrite app_length; simpl; lia|].
  destruct (grow (pre (l / 256)) (l mod 256) (suf (l / 256))) as (v & E & Wv & Lv & Mv & G).
  { apply Forall_app. split; auto. constructor; auto. lia. }
  assert (LL : length (pre (l / 256) ++ (l mod 256) :: suf (l / 256)) = len) by (rewrite app_length; simpl; lia).
  setoid_rewrite HW. unfold utfn_block.
  destruct ((l + 1 <? N.min h blimit) && (0 <? (l + 1) mod 256)) eqn:C.
  - set (m := N.min (N.min h blimit) (((l + 1) / 256 + 1) * 256)) in *.
    assert (Hb : l + 1 < m /\ m <= N.min h blimit /\ m <= ((l + 1) / 256 + 1) * 256) by (unfold m; lia). clearbody m.
    rewrite !land_255.
    destruct (G ((l + 1) mod 256) ((m - 1) mod 256 + 1)) as (s & s' & v' & E1 & E2 & E3 & Wv' & Lv' & Mv'); [lia|lia|].
    exists v, v', m. rewrite <- L0. rewrite E1. cbn [bind]. rewrite E2. cbn [bind]. rewrite E3. cbn [bind].
    split; [auto|]. split; [auto|]. split; [lia|]. split; [auto|]. split; [lia|]. split; [lia|].
    apply (block_finish c len l m (pre (l / 256)) (l mod 256) (suf (l / 256)) ((l + 1) mod 256) ((m - 1) mod 256 + 1)); auto; try lia.
    intros x Hx. destruct (W x) as (-> & _); [lia|]. replace (x / 256) with (l / 256) by lia. f_equal. f_equal. lia.
  - exists v, v, (l + 1). split; [auto|]. split; [auto|]. split; [lia|]. split; [auto|]. split; [lia|]. split; [lia|].
    intros w. rewrite Mv. split; [intros ->; exists l; split; [lia|auto]|].
    intros (x & Hx & <-). replace x with l by lia. auto.
Qed.

Lemma block16_2 le lo hi : hi <= 55296 \/ 57344 <= lo /\ hi <= 65536 -> block_ok (UTF16 le) 2 lo hi.
Proof.
  intros H. destruct le.
  - apply (blockn _ 2 lo hi 0 (fun _ => []) (fun q => [q])); [lia|reflexivity|]. intros x Hx. rewrite base_write16. unfold u16.
    replace ((x <? 55296) || ((57344 <=? x) && (x <? 65536))) with true by lia. sp; auto; repeat constructor; lia.
  - apply (blockn _ 2 lo hi 1 (fun q => [q]) (fun _ => [])); [lia|reflexivity|]. intros x Hx. rewrite base_write16. unfold u16.
    replace ((x <? 55296) || ((57344 <=? x) && (x <? 65536))) with true by lia. sp; auto; repeat constructor; lia.
Qed.

Lemma block16_4 le : block_ok (UTF16 le) 4 65536 1114112.
Proof.
  assert (A : forall x, 65536 <= x < 1114112 ->
    (55296 + (x - 65536) / 1024) mod 256 = (55296 + (x / 256 - 256) / 4) mod 256 /\
    (55296 + (x - 65536) / 1024) / 256 = (55296 + (x / 256 - 256) / 4) / 256 /\
    (56320 + (x - 65536) mod 1024) mod 256 = x mod 256 /\
    (56320 + (x - 65536) mod 1024) / 256 = 220 + (x / 256) mod 4 /\ x / 256 < 4352 /\ 256 <= x / 256).
  { intros x Hx. repeat split; lia. }
  destruct le.
  - apply (blockn _ 4 _ _ 2 (fun q => [(55296 + (q - 256) / 4) mod 256; (55296 + (q - 256) / 4) / 256]) (fun q => [220 + q mod 4]));
      [lia|reflexivity|]. intros x Hx. rewrite base_write16. unfold u16.
    replace ((x <? 55296) || ((57344 <=? x) && (x <? 65536))) with false by lia.
    replace ((65536 <=? x) && (x <? 1114112)) with true by lia. cbv zeta.
    destruct (A x Hx) as (-> & -> & -> & -> & ? & ?). sp; auto; repeat constructor; lia.
  - apply (blockn _ 4 _ _ 3 (fun q => [(55296 + (q - 256) / 4) / 256; (55296 + (q - 256) / 4) mod 256; 220 + q mod 4]) (fun _ => []));
      [lia|reflexivity|]. intros x Hx. rewrite base_write16. unfold u16.
    replace ((x <? 55296) || ((57344 <=? x) && (x <? 65536))) with false by lia.
    replace ((65536 <=? x) && (x <? 1114112)) with true by lia. cbv zeta.
    destruct (A x Hx) as (-> & -> & -> & -> & ? & ?). sp; auto; repeat constructor; lia.
Qed.

Lemma block32 le lo hi : hi <= 55296 \/ 57344 <= lo /\ hi <= 1114112 -> block_ok (UTF32 le) 4 lo hi.
Proof.
  intros H. destruct le.
  - apply (blockn _ 4 lo hi 0 (fun _ => []) (fun q => [q mod 256; q / 256; 0])); [lia|reflexivity|]. intros x Hx. rewrite base_write32. unfold u32.
    replace ((x <? 55296) || ((57344 <=? x) && (x <? 1114112))) with true by lia. sp; auto.
    + cbn [app]. leq.
    + constructor.
    + repeat constructor; lia.
  - apply (blockn _ 4 lo hi 3 (fun q => [0; q / 256; q mod 256]) (fun _ => [])); [lia|reflexivity|]. intros x Hx. rewrite base_write32. unfold u32.
    replace ((x <? 55296) || ((57344 <=? x) && (x <? 1114112))) with true by lia. sp; auto.
    + cbn [app]. leq.
    + repeat constructor; lia.
    + constructor.
Qed.

(** * writeRange *)

(** Ranges in order, all from [lo] on. *)
Fixpoint ordered (lo : N) (rs : list (N * N)) : Prop :=
  match rs with [] => True | (a, b) :: t => lo <= a /\ a < b /\ ordered (b + 1) t end.

Lemma ordered_le rs : forall lo lo', lo' <= lo -> ordered lo rs -> ordered lo' rs.
Proof. destruct rs as [|[a b] t]; simpl; auto. intros lo lo' H (? & ? & ?). repeat split; auto; lia. Qed.

Definition inrs (rs : list (N * N)) (x : N) : Prop := exists a b, In (a, b) rs /\ a <= x < b.
Lemma inrs_cons a b rs x : inrs ((a, b) :: rs) x <-> a <= x < b \/ inrs rs x.
Proof.
  unfold inrs. split.
  - intros (a' & b' & [[= -> ->]|H] & ?); eauto.
  - intros [H|(a' & b' & H & ?)]; [exists a, b; simpl; auto|exists a', b'; simpl; auto].
Qed.
Lemma inrs_nil x : inrs [] x <-> False.
Proof. split; [intros (a & b & [] & _)|tauto]. Qed.
Lemma ordered_lb rs : forall lo x, ordered lo rs -> inrs rs x -> lo <= x.
Proof.
  induction rs as [|[a b] t IH]; simpl; intros lo x O H; [apply inrs_nil in H as []|].
  destruct O as (? & ? & ?). apply inrs_cons in H as [H|H]; [lia|]. specialize (IH _ _ H2 H). lia.
Qed.

(** What is still to be collected. *)
Definition rem (s : cstate) (x : N) : Prop :=
  match s.(c_rs) with [] => False | _ :: t => s.(c_l) <= x < s.(c_h) \/ inrs t x end.

Record sok (c : charset) (S : N -> Prop) (s : cstate) : Prop := {
  so_va : Forall (vgood 4) s.(c_va);
  so_rs : match s.(c_rs) with
          | [] => s.(c_h) <= s.(c_l)
          | (a, b) :: t => b = s.(c_h) /\ s.(c_l) < s.(c_h) /\ ordered (s.(c_h) + 1) t
          end;
  so_sub : forall x, rem s x -> S x;
  so_lang : forall w, lang s.(c_va) w <-> exists x, S x /\ ~ rem s x /\ base_write c (Z.of_N x) = w
}.

Definition measure (s : cstate) : nat :=
  match s.(c_rs) with [] => 1%nat | _ :: t => (N.to_nat (s.(c_h) - s.(c_l)) + rounds t + 1)%nat end.

Lemma rem_dec s x : rem s x \/ ~ rem s x.
Proof.
  assert (D : forall rs, inrs rs x \/ ~ inrs rs x).
  { induction rs as [|[a b] t IH]; [right; rewrite inrs_nil; auto|]. rewrite inrs_cons.
    assert (a <= x < b \/ ~ a <= x < b) by lia. tauto. }
  unfold rem. destruct (c_rs s); [auto|]. assert (c_l s <= x < c_h s \/ ~ c_l s <= x < c_h s) by lia. specialize (D l). tauto.
Qed.

Lemma writeRange_spec c len lo blimit S : block_ok c len lo blimit -> forall n s, sok c S s -> (measure s <= n)%nat ->
  (forall x, rem s x -> lo <= x) ->
  exists s', writeRange c n s len blimit = Ok s' /\ sok c S s' /\ (measure s' <= measure s)%nat /\ (forall x, rem s' x -> blimit <= x /\ rem s x).
Proof.
  intros B. induction n as [|n IH]; intros s K Hn Hlo.
  { unfold measure in Hn. destruct (c_rs s); lia. }
  cbn [writeRange]. destruct K as [Kva Krs Ksub Kl].
  destruct (N.ltb_spec (c_l s) (N.min (c_h s) blimit)) as [Hlt|Hge].
  2:{ exists s. split; auto. split; [constructor; auto|]. split; auto.
      intros x Hx. split; auto. unfold rem in Hx. destruct (c_rs s) as [|[a b] t]; [tauto|]. destruct Krs as (-> & ? & Ho).
      destruct Hx as [Hx|Hx]; [lia|]. pose proof (ordered_lb _ _ _ Ho Hx). lia. }
  destruct (c_rs s) as [|[a b] t] eqn:Ers; [lia|]. destruct Krs as (-> & Hlh & Ho).
  assert (Hl0 : lo <= c_l s). { apply Hlo. unfold rem. rewrite Ers. left. lia. }
  destruct (B (c_l s) (c_h s) Hl0 Hlt) as (Len & v & v' & l' & Ev & Eb & Hl' & Wv' & Lv' & Hlen & Mv').
  rewrite Len, Nat.eqb_refl. cbn [negb]. rewrite Ev. cbn [bind]. rewrite Eb. cbn [bind].
  assert (Gv : vgood 4 v'). { split; auto. split; [lia|]. exists (base_write c (Z.of_N (c_l s))). apply Mv'. exists (c_l s). split; [lia|auto]. }
  (* the new language, for any state with the right rest *)
  assert (NL : forall s2, c_va s2 = v' :: c_va s -> (forall x, rem s2 x <-> rem s x /\ l' <= x) ->
     forall w, lang (c_va s2) w <-> exists x, S x /\ ~ rem s2 x /\ base_write c (Z.of_N x) = w).
  { intros s2 E2 R2 w. rewrite E2, lang_cons, Mv', Kl. split.
    - intros [(x & Hx & E)|(x & Hx & Hr & E)]; exists x; sp; auto.
      + apply Ksub. unfold rem. rewrite Ers. left. lia.
      + rewrite R2. lia.
      + rewrite R2. tauto.
    - intros (x & Hx & Hr & E). rewrite R2 in Hr. destruct (rem_dec s x) as [Hs|Hs]; [left|right].
      + exists x. split; auto. assert (~ l' <= x) by tauto. unfold rem in Hs. rewrite Ers in Hs. destruct Hs as [Hs|Hs]; [lia|].
        pose proof (ordered_lb _ _ _ Ho Hs). lia.
      + exists x; auto. }
  assert (Mdec : forall rs2 l2 h2, (measure (mkC (v' :: c_va s) rs2 l2 h2) < measure s)%nat -> True) by auto. clear Mdec.
  destruct (N.ltb_spec l' (c_h s)) as [Hlh2|Hlh2].
  - set (s2 := mkC (v' :: c_va s) ((a, c_h s) :: t) l' (c_h s)).
    assert (R2 : forall x, rem s2 x <-> rem s x /\ l' <= x).
    { intros x. unfold rem, s2. cbn [c_rs c_l c_h]. rewrite Ers. split; [intros [H|H]|intros [[H|H] ?]]; auto.
      - split; [left; lia|lia].
      - split; auto. pose proof (ordered_lb _ _ _ Ho H). lia.
      - left; lia. }
    assert (K2 : sok c S s2).
    { constructor; cbn [c_va c_rs c_h c_l s2]; auto.
      - intros x Hx. apply Ksub. apply R2. auto.
      - apply (NL s2); auto. }
    assert (M2 : (measure s2 < measure s)%nat). { unfold measure, s2. cbn [c_rs c_l c_h]. rewrite Ers. lia. }
    destruct (N.leb_spec blimit l').
    + exists s2. sp; auto; try lia. intros x Hx. apply R2 in Hx. split; [lia|tauto].
    + destruct (IH s2 K2) as (s' & E & K' & M' & R'); [lia|intros x Hx; apply R2 in Hx; apply Hlo; tauto|].
      exists s'. sp; auto; try lia. intros x Hx. destruct (R' x Hx) as [? Hx2]. apply R2 in Hx2. tauto.
  - assert (l' = c_h s) by lia. subst l'. destruct t as [|[l2 h2] t].
    + set (s2 := mkC (v' :: c_va s) [] (c_h s) (c_h s)).
      assert (R2 : forall x, rem s2 x <-> rem s x /\ c_h s <= x).
      { intros x. unfold rem, s2. cbn [c_rs c_l c_h]. rewrite Ers. split; [tauto|]. intros [[H|H] ?]; [lia|apply inrs_nil in H; auto]. }
      exists s2. sp.
      * reflexivity.
      * constructor; cbn [c_va c_rs c_h c_l s2]; auto; [intros x Hx; apply R2 in Hx; apply Ksub; tauto|apply (NL s2); auto].
      * unfold measure, s2. cbn [c_rs]. rewrite Ers. lia.
      * intros x Hx. destruct Hx.
    + set (s2 := mkC (v' :: c_va s) ((l2, h2) :: t) l2 h2). destruct Ho as (Ho1 & Ho2 & Ho3).
      assert (R2 : forall x, rem s2 x <-> rem s x /\ c_h s <= x).
      { intros x. unfold rem, s2. cbn [c_rs c_l c_h]. rewrite Ers, inrs_cons. split; [intros [H|H]|intros [[H|[H|H]] ?]]; auto.
        - split; [auto|lia].
        - split; auto. pose proof (ordered_lb _ _ _ Ho3 H). lia.
        - lia. }
      assert (K2 : sok c S s2).
      { constructor; cbn [c_va c_rs c_h c_l s2]; auto; [intros x Hx; apply R2 in Hx; apply Ksub; tauto|apply (NL s2); auto]. }
      assert (M2 : (measure s2 < measure s)%nat). { unfold measure, s2. cbn [c_rs c_l c_h]. rewrite Ers. cbn [rounds]. lia. }
      destruct (IH s2 K2) as (s' & E & K' & M' & R'); [lia|intros x Hx; apply R2 in Hx; apply Hlo; tauto|].
      exists s'. sp; auto; try lia. intros x Hx. destruct (R' x Hx) as [? Hx2]. apply R2 in Hx2. tauto.
Qed.

Definition scal (x : N) : Prop := x < 55296 \/ 57344 <= x < 1114112.

Lemma skip_id c S s : sok c S s -> (forall x, S x -> scal x) -> (forall x, rem s x -> 55296 <= x) ->
  skipRange s 57344 = s /\ forall x, rem s x -> 57344 <= x.
Proof.
  intros K V R. assert (R2 : forall x, rem s x -> 57344 <= x).
  { intros x Hx. specialize (R x Hx). specialize (V x (so_sub _ _ _ K x Hx)). unfold scal in V. lia. }
  split; auto. unfold skipRange. destruct (N.ltb_spec (c_l s) 57344); auto. destruct (c_rs s) as [|[a b] t] eqn:E; auto.
  exfalso. destruct K as [_ Krs _ _]. rewrite E in Krs. specialize (R2 (c_l s)). unfold rem in R2. rewrite E in R2. lia.
Qed.

Lemma utf_collect_spec c uset : c <> ASCII -> ordered 0 (ranges uset) -> (forall x, inrs (ranges uset) x -> scal x) ->
  exists va, utf_collect c uset = Ok va /\ Forall (vgood 4) va /\
    forall w, lang va w <-> exists x, inrs (ranges uset) x /\ base_write c (Z.of_N x) = w.
Proof.
  intros Hc O V. unfold utf_collect. destruct (ranges uset) as [|[l h] t] eqn:E.
  { exists []. sp; auto; [rewrite lang_nil; tauto|]. intros (x & Hx & _). apply inrs_nil in Hx as []. }
  cbv zeta. set (s0 := mkC [] ((l, h) :: t) l h). set (S := inrs ((l, h) :: t)) in *. destruct O as (_ & O1 & O2).
  assert (R0 : forall x, rem s0 x <-> S x) by (intros x; unfold rem, s0, S; cbn [c_rs c_l c_h]; rewrite inrs_cons; tauto).
  assert (K0 : sok c S s0).
  { constructor; cbn [c_va c_rs c_h c_l s0]; auto; [apply R0|]. intros w. rewrite lang_nil. split; [tauto|]. intros (x & Hx & Hr & _).
    apply Hr. apply R0. auto. }
  remember (rounds ((l, h) :: t)) as n eqn:En.
  assert (M0 : (measure s0 <= n)%nat) by (rewrite En; unfold measure, s0; cbn [c_rs c_l c_h rounds]; lia).
  assert (FIN : forall s, sok c S s -> (forall x, rem s x -> 1114112 <= x) ->
    Forall (vgood 4) (c_va s) /\ forall w, lang (c_va s) w <-> exists x, S x /\ base_write c (Z.of_N x) = w).
  { intros s K R. split; [apply K|]. intros w. rewrite (so_lang _ _ _ K). split; intros (x & Hx & H); exists x; sp; auto; try tauto.
    intros Hr. specialize (R x Hr). specialize (V x Hx). unfold scal in V. lia. }
  destruct c as [| |le|le]; [congruence| | |].
  - destruct (writeRange_spec UTF8 1 0 128 S block8_1 n s0 K0) as (s1 & -> & K1 & M1 & R1); [lia|intros; lia|]. cbn [bind].
    destruct (writeRange_spec UTF8 2 128 2048 S block8_2 n s1 K1) as (s2 & -> & K2 & M2 & R2); [lia|apply R1|]. cbn [bind].
    destruct (writeRange_spec UTF8 3 2048 55296 S (block8_3 2048 55296 ltac:(lia) ltac:(lia)) n s2 K2) as (s3 & -> & K3 & M3 & R3); [lia|apply R2|]. cbn [bind].
    destruct (skip_id _ _ s3 K3 V) as (-> & R3'); [apply R3|].
    destruct (writeRange_spec UTF8 3 57344 65536 S (block8_3 57344 65536 ltac:(lia) ltac:(lia)) n s3 K3) as (s4 & -> & K4 & M4 & R4); [lia|apply R3'|]. cbn [bind].
    destruct (writeRange_spec UTF8 4 65536 1114112 S block8_4 n s4 K4) as (s5 & -> & K5 & M5 & R5); [lia|apply R4|]. cbn [bind].
    exists (c_va s5). split; auto. apply FIN; auto. apply R5.
  - destruct (writeRange_spec (UTF16 le) 2 0 55296 S (block16_2 le 0 55296 ltac:(lia)) n s0 K0) as (s1 & -> & K1 & M1 & R1); [lia|intros; lia|]. cbn [bind].
    destruct (skip_id _ _ s1 K1 V) as (-> & R1'); [apply R1|].
    destruct (writeRange_spec (UTF16 le) 2 57344 65536 S (block16_2 le 57344 65536 ltac:(lia)) n s1 K1) as (s4 & -> & K4 & M4 & R4); [lia|apply R1'|]. cbn [bind].
    destruct (writeRange_spec (UTF16 le) 4 65536 1114112 S (block16_4 le) n s4 K4) as (s5 & -> & K5 & M5 & R5); [lia|apply R4|]. cbn [bind].
    exists (c_va s5). split; auto. apply FIN; auto. apply R5.
  - destruct (writeRange_spec (UTF32 le) 4 0 55296 S (block32 le 0 55296 ltac:(lia)) n s0 K0) as (s1 & -> & K1 & M1 & R1); [lia|intros; lia|]. cbn [bind].
    destruct (skip_id _ _ s1 K1 V) as (-> & R1'); [apply R1|].
    destruct (writeRange_spec (UTF32 le) 4 57344 1114112 S (block32 le 57344 1114112 ltac:(lia)) n s1 K1) as (s5 & -> & K5 & M5 & R5); [lia|apply R1'|]. cbn [bind].
    exists (c_va s5). split; auto. apply FIN; auto. apply R5.
Qed.

(** * ASCII *)
Lemma ascii_ranges_spec rs : forall lo s, ordered lo rs -> bs_wf s ->
  exists s', ascii_ranges rs s = Ok s' /\ bs_wf s' /\ forall x, x < 256 -> (tb s' x = true <-> tb s x = true \/ (x < 128 /\ inrs rs x)).
Proof.
  induction rs as [|[a b] t IH]; intros lo s O W; cbn [ascii_ranges].
  - exists s. sp; auto. intros x Hx. rewrite inrs_nil. tauto.
  - destruct O as (O1 & O2 & O3). bcase.
    + exists s. sp; auto. intros x Hx. rewrite inrs_cons. split; auto. intros [?|[? [?|Hr]]]; auto; [lia|].
      pose proof (ordered_lb _ _ _ O3 Hr). lia.
    + bcase.
      * destruct (set_range_spec s a 128 true W) as (s' & E & W' & T); [lia|lia|]. exists s'. sp; auto.
        intros x Hx. rewrite T, inrs_cons by auto. destruct ((a <=? x) && (x <? 128)) eqn:C.
        -- split; auto. intros _. right. split; [|left]; lia.
        -- split; auto. intros [?|[? [?|Hr]]]; auto; [lia|]. pose proof (ordered_lb _ _ _ O3 Hr). lia.
      * destruct (set_range_spec s a b true W) as (s' & E & W' & T); [lia|lia|]. rewrite E. cbn [bind].
        destruct (IH _ s' O3 W') as (s2 & E2 & W2 & T2). exists s2. sp; auto.
        intros x Hx. rewrite T2, T, inrs_cons by auto. destruct ((a <=? x) && (x <? b)) eqn:C.
        -- split; auto. intros _. right. split; [|left]; lia.
        -- split; [intros [?|?]; auto; tauto|]. intros [?|[? [?|Hr]]]; auto; lia.
Qed.

(** * Ranges of a code point set *)
Lemma ranges_spec M : forall v, canon M v -> ordered 0 (ranges v) /\ (forall x, par v x = true <-> inrs (ranges v) x) /\
  (forall lo, Forall (fun e => lo < e) v -> ordered (lo + 1) (ranges v)).
Proof.
  assert (G : forall n v, (length v <= n)%nat -> canon M v -> ordered 0 (ranges v) /\ (forall x, par v x = true <-> inrs (ranges v) x) /\
    (forall lo, Forall (fun e => lo < e) v -> ordered (lo + 1) (ranges v))).
  { induction n as [|n IH]; intros v Hn C.
    - destruct v; [|simpl in Hn; lia]. cbn. sp; auto. intros x. rewrite inrs_nil. unfold par; simpl. split; [discriminate|tauto].
    - destruct v as [|a [|b t]].
      + cbn. sp; auto. intros x. rewrite inrs_nil. unfold par; simpl. split; [discriminate|tauto].
      + destruct C as [_ Ce _]. simpl in Ce. discriminate.
      + destruct (even_SS_tail M a b t C) as (Ct & Hab & HbM & Hf). destruct (IH t) as (O & P & O2); [simpl in Hn; lia|auto|].
        cbn [ranges]. sp.
        * cbn [ordered]. sp; auto; lia.
        * intros x. rewrite inrs_cons, <- P, (par_pair a b t x Hab Hf). destruct ((a <=? x) && (x <? b)) eqn:E; cbn [orb].
          -- split; auto. left; lia.
          -- split; auto. intros [?|?]; auto; lia.
        * intros lo Hlo. apply Forall_cons_iff in Hlo as [? _]. cbn [ordered]. sp; auto; lia. }
  intros v. apply (G (length v) v). lia.
Qed.
