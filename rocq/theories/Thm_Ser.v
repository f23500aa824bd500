(** C13, C14: serialised programs. *)
From Verif Require Import Base VmModel SerModel.
Open Scope N_scope.

(** What a handle holds: C strings, and unsigned integers that fit their types. *)
Definition cstring (s : list N) : Prop := Forall (fun b => 0 < b < 256) s.
Record handle_ok (h : handle) : Prop := {
  ho_pmap : Forall (fun p => cstring p.(pi_pattern) /\ cstring p.(pi_chain) /\ p.(pi_user) < 2 ^ 64) h.(h_pmap);
  ho_words : Forall (fun w => w < 2 ^ 32) h.(h_prog).(p_words);
  ho_label : h.(h_prog).(p_maxLabel) < 2 ^ 32;
  ho_check : h.(h_prog).(p_maxCheck) < 2 ^ 32;
  ho_off : h.(h_prog).(p_filterOff) < 2 ^ 32;
  ho_filter : forall i, 65536 <= i -> N.testbit h.(h_prog).(p_filter) i = false
}.

(** The number of bytes the handle takes up. *)
Definition stored_bytes (h : handle) : N :=
  8 + fold_right (fun p a => N.of_nat (length p.(pi_pattern) + length p.(pi_chain)) + 10 + a) 0 h.(h_pmap) +
  8 + 12 + 8192 + 4 * N.of_nat (length h.(h_prog).(p_words)).

Lemma le_length k n : length (le_bytes k n) = k.
Proof. revert n. induction k; simpl; auto. Qed.

Lemma rd_le k : forall n s, n < 256 ^ N.of_nat k -> rd k (le_bytes k n ++ s) = Ok (n, s).
Proof.
  induction k as [|k IH]; intros n s H.
  - change (256 ^ N.of_nat 0) with 1 in H. simpl. do 2 f_equal. lia.
  - replace (N.of_nat (S k)) with (N.succ (N.of_nat k)) in H by lia. rewrite N.pow_succ_r' in H.
    cbn [le_bytes app rd]. rewrite IH.
    + cbn [bind]. do 2 f_equal. pose proof (N.div_mod n 256 ltac:(lia)). lia.
    + apply N.div_lt_upper_bound; lia.
Qed.

Lemma cstr_ok w s : cstring w -> cstr (w ++ 0 :: s) = Ok (w, s).
Proof.
  induction 1 as [|b w Hb Hw IH]; cbn [app cstr]; auto. destruct (N.eqb_spec b 0); [lia|]. rewrite IH. reflexivity.
Qed.

Lemma pinfo_length p : length (pinfo_bytes p) = (length p.(pi_pattern) + length p.(pi_chain) + 10)%nat.
Proof. unfold pinfo_bytes. rewrite !app_length, le_length. simpl. lia. Qed.

Lemma unmarshall_pmap l : Forall (fun p => cstring p.(pi_pattern) /\ cstring p.(pi_chain) /\ p.(pi_user) < 2 ^ 64) l ->
  forall n s, (length (flat_map pinfo_bytes l) <= n)%nat ->
  pmap_unmarshall n (flat_map pinfo_bytes l ++ s) (length (flat_map pinfo_bytes l)) = Ok l.
Proof.
  induction 1 as [|p l (Hp & Hc & Hu) F IH]; intros n s Hn; [destruct n; reflexivity|].
  cbn [flat_map] in *. rewrite app_length, pinfo_length in *. destruct n as [|n]; [lia|].
  replace (length (pi_pattern p) + length (pi_chain p) + 10 + length (flat_map pinfo_bytes l))%nat
    with (S (length (pi_pattern p) + length (pi_chain p) + 9 + length (flat_map pinfo_bytes l)))%nat by lia.
  cbn [pmap_unmarshall]. rewrite <- (app_assoc (pinfo_bytes p)). set (rest := flat_map pinfo_bytes l ++ s) in *.
  unfold pinfo_bytes at 1 3. rewrite <- !app_assoc. cbn [app]. rewrite cstr_ok by auto. cbn [bind]. rewrite cstr_ok by auto. cbn [bind].
  rewrite rd_le by exact Hu. cbn [bind]. fold rest.
    match goal with |- context [pmap_unmarshall n rest ?k] => replace k with (length (flat_map pinfo_bytes l)) end.
  2:{ rewrite !app_length. cbn [length]. rewrite !app_length. cbn [length]. rewrite app_length, le_length. lia. }
  unfold rest. rewrite IH by lia. cbn [bind]. destruct p; reflexivity.
Qed.

(** The filter: bit by bit. *)
Lemma filter_byte_bit f b i : N.testbit (filter_byte f b) i = (i <? 8) && N.testbit f (8 * b + i).
Proof.
  assert (E : forall x j, N.testbit (N.shiftl (N.b2n x) j) i = (i =? j) && x).
  { intros x j. destruct (N.leb_spec j i) as [H|H].
    - rewrite N.shiftl_spec_high' by auto. destruct (N.eqb_spec i j) as [->|].
      + rewrite N.sub_diag. destruct x; reflexivity.
      + destruct x; cbn [N.b2n]; [|apply N.bits_0]. change 1 with (2 ^ 0). rewrite N.pow2_bits_false by lia. reflexivity.
    - rewrite N.shiftl_spec_low by auto. destruct (N.eqb_spec i j); [lia|auto]. }
  unfold filter_byte. cbn [fold_right]. rewrite !N.lor_spec, !E, N.bits_0.
  destruct (N.ltb_spec i 8).
  - assert (C : i = 0 \/ i = 1 \/ i = 2 \/ i = 3 \/ i = 4 \/ i = 5 \/ i = 6 \/ i = 7) by lia.
    repeat destruct C as [->|C]; subst; rewrite ?andb_true_l; cbn -[N.testbit N.mul N.add];
      change (0 =? 0) with true; rewrite ?orb_false_r; reflexivity.
  - assert (N : forall j, j < 8 -> (i =? j) = false) by (intros; lia). rewrite !N by lia. reflexivity.
Qed.

Lemma land_bit x j : (N.land x (N.shiftl 1 j) =? 0) = negb (N.testbit x j).
Proof.
  destruct (N.testbit x j) eqn:E; cbn [negb].
  - apply N.eqb_neq. intros H. apply (f_equal (fun y => N.testbit y j)) in H. rewrite N.land_spec, E, N.shiftl_1_l, N.pow2_bits_true, N.bits_0 in H. discriminate.
  - apply N.eqb_eq. apply N.bits_inj. intros k. rewrite N.land_spec, N.shiftl_1_l, N.bits_0. destruct (N.eq_dec j k) as [->|].
    + rewrite E. auto.
    + rewrite N.pow2_bits_false by auto. apply andb_false_r.
Qed.

Lemma bits_of_bit x b i : N.testbit (bits_of x b) i = (8 * b <=? i) && (i <? 8 * b + 8) && N.testbit x (i - 8 * b).
Proof.
  assert (E : forall j a, N.testbit (if N.land x (N.shiftl 1 j) =? 0 then a else N.lor (N.shiftl 1 (8 * b + j)) a) i =
    (i =? 8 * b + j) && N.testbit x j || N.testbit a i).
  { intros j a. rewrite land_bit. destruct (N.testbit x j) eqn:Ej; cbn [negb].
    - rewrite N.lor_spec, N.shiftl_1_l. f_equal. rewrite andb_true_r. rewrite N.pow2_bits_eqb. apply N.eqb_sym.
    - rewrite andb_false_r. auto. }
  unfold bits_of. cbn [fold_right]. rewrite !E, N.bits_0.
  destruct (N.leb_spec (8 * b) i); destruct (N.ltb_spec i (8 * b + 8)); cbn [andb].
  - assert (C : i = 8 * b + 0 \/ i = 8 * b + 1 \/ i = 8 * b + 2 \/ i = 8 * b + 3 \/ i = 8 * b + 4 \/ i = 8 * b + 5 \/ i = 8 * b + 6 \/ i = 8 * b + 7) by lia.
    assert (Q : forall u v, (8 * b + u =? 8 * b + v) = (u =? v)) by (intros; lia).
    repeat destruct C as [->|C]; subst; rewrite !Q; cbn -[N.testbit N.mul N.add N.sub N.eqb];
      (match goal with |- context [8 * b + ?u - 8 * b] => replace (8 * b + u - 8 * b) with u by lia end);
      vm_compute (N.eqb _ _); cbn -[N.testbit]; rewrite ?orb_false_r; reflexivity.
  - assert (N : forall j, j < 8 -> (i =? 8 * b + j) = false) by (intros; lia). rewrite !N by lia. reflexivity.
  - assert (N : forall j, j < 8 -> (i =? 8 * b + j) = false) by (intros; lia). rewrite !N by lia. reflexivity.
  - lia.
Qed.

Lemma filter_round f k : forall b s, exists g, rd_filter k b (filter_bytes f b k ++ s) = Ok (g, s) /\
  forall i, N.testbit g i = (8 * b <=? i) && (i <? 8 * (b + N.of_nat k)) && N.testbit f i.
Proof.
  induction k as [|k IH]; intros b s; cbn [rd_filter filter_bytes app].
  - exists 0. split; auto. intros i. rewrite N.bits_0. destruct (N.leb_spec (8 * b) i); destruct (N.ltb_spec i (8 * (b + N.of_nat 0))); auto. lia.
  - destruct (IH (b + 1) s) as (g & E & Hg). rewrite E. cbn [bind]. eexists. split; [reflexivity|].
    intros i. rewrite N.lor_spec, bits_of_bit, filter_byte_bit, Hg.
    destruct (N.leb_spec (8 * b) i) as [H1|H1].
    + replace (8 * b + (i - 8 * b)) with i by lia. destruct (N.testbit f i); rewrite ?andb_true_r, ?andb_false_r; auto. lia.
    + destruct (N.testbit f i); rewrite ?andb_true_r, ?andb_false_r; auto. lia.
Qed.

Lemma filter_length f b k : length (filter_bytes f b k) = k.
Proof. revert b. induction k; intros; simpl; auto. Qed.

Lemma words_round l s : Forall (fun w => w < 2 ^ 32) l -> rd_words (length l) (flat_map (le_bytes 4) l ++ s) = Ok l.
Proof.
  induction 1 as [|w l Hw F IH]; cbn [length rd_words flat_map]; auto. rewrite <- app_assoc, rd_le by exact Hw. cbn [bind].
  rewrite IH. reflexivity.
Qed.
Lemma words_length l : length (flat_map (le_bytes 4) l) = (4 * length l)%nat.
Proof. induction l; cbn [flat_map length]; auto. rewrite app_length, le_length. lia. Qed.

Lemma prog_length p : length (prog_marshall p) = (12 + N.to_nat 8192 + 4 * length p.(p_words))%nat.
Proof. unfold prog_marshall. rewrite !app_length, !le_length, filter_length, words_length. unfold filter_size. lia. Qed.

Lemma prog_round p s : Forall (fun w => w < 2 ^ 32) p.(p_words) -> p.(p_maxLabel) < 2 ^ 32 -> p.(p_maxCheck) < 2 ^ 32 ->
  p.(p_filterOff) < 2 ^ 32 -> (forall i, 65536 <= i -> N.testbit p.(p_filter) i = false) ->
  N.of_nat (length (prog_marshall p)) < 2 ^ 64 ->
  prog_unmarshall (prog_marshall p ++ s) (N.of_nat (length (prog_marshall p))) = Ok p.
Proof.
  intros Hw Hl Hc Ho Hf Hs. unfold prog_unmarshall.
  assert (IC : ((N.of_nat (length (prog_marshall p)) + two64 - (4 + 4 + 4 + 8192)) mod two64) / 4 = N.of_nat (length p.(p_words))).
  { rewrite prog_length in *. unfold two64. set (n := length (p_words p)) in *.
    replace (N.of_nat (12 + N.to_nat 8192 + 4 * n) + 18446744073709551616 - (4 + 4 + 4 + 8192)) with (4 * N.of_nat n + 1 * 18446744073709551616) by lia.
    rewrite N.mod_add by lia. rewrite N.mod_small by lia. rewrite N.mul_comm. apply N.div_mul. lia. }
  rewrite IC. unfold prog_marshall. rewrite <- !app_assoc.
  rewrite rd_le by exact Hl. cbn [bind]. rewrite rd_le by exact Hc. cbn [bind]. rewrite rd_le by exact Ho. cbn [bind].
  destruct (filter_round p.(p_filter) filter_size 0 (flat_map (le_bytes 4) p.(p_words) ++ s)) as (g & E & Hg). rewrite E. cbn [bind].
  rewrite app_length, words_length. destruct (N.ltb_spec (N.of_nat (4 * length (p_words p) + length s)) (4 * N.of_nat (length (p_words p)))); [lia|].
  rewrite Nat2N.id, words_round by auto. cbn [bind]. f_equal.
  assert (g = p.(p_filter)).
  { apply N.bits_inj. intros i. rewrite Hg. unfold filter_size. destruct (N.ltb_spec i 65536).
    - replace (8 * 0 <=? i) with true by lia. replace (i <? 8 * (0 + N.of_nat (N.to_nat 8192))) with true by lia. auto.
    - rewrite Hf by auto. apply andb_false_r. }
  subst g. destruct p; reflexivity.
Qed.

Lemma to_int_small n : n < 2 ^ 31 -> to_int n = n.
Proof. intros H. unfold to_int, two32. change (2 ^ 31) with 2147483648 in H. rewrite N.mod_small by lia. destruct (N.ltb_spec n 2147483648); lia. Qed.

Lemma pmap_content_length l : N.of_nat (length (flat_map pinfo_bytes l)) =
  fold_right (fun p a => N.of_nat (length p.(pi_pattern) + length p.(pi_chain)) + 10 + a) 0 l.
Proof. induction l; cbn [flat_map fold_right length]; auto. rewrite app_length, pinfo_length. lia. Qed.

Lemma bufSize_exact l : N.of_nat (length (flat_map pinfo_bytes l)) < 2 ^ 31 -> pmap_bufSize l = N.of_nat (length (flat_map pinfo_bytes l)).
Proof.
  unfold pmap_bufSize. change 0 with (N.of_nat 0).
  assert (G : forall l s, N.of_nat s + N.of_nat (length (flat_map pinfo_bytes l)) < 2 ^ 31 ->
    fold_left (fun s p => to_int ((s + N.of_nat (length p.(pi_pattern)) + 1 + N.of_nat (length p.(pi_chain)) + 1 + 8) mod two64)) l (N.of_nat s)
      = N.of_nat (s + length (flat_map pinfo_bytes l))).
  { change (2 ^ 31) with 2147483648. induction l0 as [|p l0 IH]; intros s H; cbn [fold_left flat_map length] in *; [f_equal; lia|].
    rewrite app_length, pinfo_length in *. rewrite N.mod_small by (unfold two64; lia). rewrite to_int_small by (change (2 ^ 31) with 2147483648; lia).
    replace (N.of_nat s + N.of_nat (length (pi_pattern p)) + 1 + N.of_nat (length (pi_chain p)) + 1 + 8)
      with (N.of_nat (s + length (pi_pattern p) + length (pi_chain p) + 10)) by lia.
    rewrite IH by lia. f_equal. lia. }
  intros H. rewrite G by lia. reflexivity.
Qed.

(** Writing a program and reading it back, whatever follows it in the buffer, gives the same handle:
    the same pattern list and the same program, on which the search functions of VmModel depend
    alone.  lg_program_size is the number of bytes written. *)
Theorem serialize_round_trip h junk :
  handle_ok h -> stored_bytes h < 2 ^ 31 ->
  exists bytes, write_program h = Ok bytes /\ N.of_nat (length bytes) = stored_bytes h /\ program_size h = N.of_nat (length bytes) /\
    Forall (fun b => b < 256) bytes /\ read_program (bytes ++ junk) = Ok (Some h).
Proof.
  intros [Hm Hw Hl Hc Ho Hf] Hs. unfold stored_bytes in Hs. rewrite <- pmap_content_length in Hs. change (2 ^ 31) with 2147483648 in Hs.
  set (m := flat_map pinfo_bytes (h_pmap h)) in *. set (p := prog_marshall (h_prog h)).
  assert (BS : pmap_bufSize (h_pmap h) = N.of_nat (length m)) by (apply bufSize_exact; fold m; change (2 ^ 31) with 2147483648; lia).
  assert (LP : length p = (12 + N.to_nat 8192 + 4 * length (p_words (h_prog h)))%nat) by apply prog_length.
  exists (le_bytes 8 (N.of_nat (length m)) ++ m ++ le_bytes 8 (N.of_nat (length p)) ++ p). split.
  { unfold write_program, pmap_marshall. rewrite BS. fold m. destruct (N.leb_spec 9223372036854775808 (N.of_nat (length m))); [lia|].
    destruct (N.ltb_spec (N.of_nat (length m)) (N.of_nat (length m))); [lia|]. rewrite Nat2N.id, Nat.sub_diag. cbn [repeat bind]. rewrite app_nil_r. auto. }
  assert (LA : N.of_nat (length (le_bytes 8 (N.of_nat (length m)) ++ m ++ le_bytes 8 (N.of_nat (length p)) ++ p)) = stored_bytes h).
  { unfold stored_bytes. rewrite <- pmap_content_length. fold m. rewrite !app_length, !le_length, LP. lia. }
  split; auto. split.
  { rewrite LA. unfold program_size. rewrite BS. unfold prog_bufSize, stored_bytes. rewrite <- pmap_content_length. fold m.
    unfold two64, two32. rewrite (N.mod_small (4 + _ + _ + _ + _)) by lia. rewrite N.mod_small by lia. lia. }
  split.
  { assert (LE : forall k n, Forall (fun b => b < 256) (le_bytes k n)) by (induction k; intros; simpl; constructor; auto; lia).
    rewrite !Forall_app. repeat split; auto.
    - unfold m. clear - Hm LE. induction Hm as [|q l (Hp & Hc & Hu) F IH]; cbn [flat_map]; [constructor|]. apply Forall_app. split; auto.
      assert (CS : forall w, cstring w -> Forall (fun b => b < 256) w) by (intros w Hw; eapply Forall_impl; [|exact Hw]; cbv beta; lia).
      unfold pinfo_bytes. rewrite !Forall_app. repeat split; auto; repeat constructor.
    - unfold p, prog_marshall. rewrite !Forall_app. repeat split; auto.
      + assert (FB : forall k b f, Forall (fun b => b < 256) (filter_bytes f b k)).
        { induction k; intros; simpl; constructor; auto. change 256 with (2 ^ 8). destruct (N.eq_dec (filter_byte f b) 0) as [->|NZ]; [reflexivity|].
          apply N.log2_lt_pow2; [lia|]. apply N.nle_gt. intros G. pose proof (N.bit_log2 _ NZ) as BT. rewrite filter_byte_bit in BT.
          replace (N.log2 (filter_byte f b) <? 8) with false in BT by lia. discriminate. }
        apply FB.
      + clear - LE. induction (p_words (h_prog h)); cbn [flat_map]; [constructor|]. apply Forall_app. auto. }
  unfold read_program. rewrite <- !app_assoc. destruct (Nat.ltb_spec (length (le_bytes 8 (N.of_nat (length m)) ++ m ++ le_bytes 8 (N.of_nat (length p)) ++ p ++ junk)) 8) as [H|H].
  { rewrite app_length, le_length in H. lia. }
  clear H. rewrite rd_le by (change (256 ^ N.of_nat 8) with 18446744073709551616; lia). cbn [bind].
  match goal with |- context [if ?b then _ else _] => replace b with false end.
  2:{ symmetry. apply N.ltb_ge. rewrite app_length. lia. }
  rewrite Nat2N.id. unfold m at 1. rewrite (unmarshall_pmap _ Hm) by (fold m; lia). cbn [bind].
  rewrite skipn_app, skipn_all, Nat.sub_diag. cbn [skipn app].
  match goal with |- context [if ?b then _ else _] => replace b with false end.
  2:{ symmetry. apply Nat.ltb_ge. rewrite app_length, le_length. lia. }
  rewrite rd_le by (change (256 ^ N.of_nat 8) with 18446744073709551616; lia). cbn [bind].
  match goal with |- context [if ?b then _ else _] => replace b with false end.
  2:{ symmetry. apply N.ltb_ge. rewrite app_length. lia. }
  unfold p. rewrite prog_round; auto; [destruct h; reflexivity|]. fold p. change (2 ^ 64) with 18446744073709551616. lia.
Qed.
Print Assumptions serialize_round_trip.

Definition sample_handle : handle :=
  mkHd [mkPI [97; 43] [65; 83; 67; 73; 73] 7; mkPI [98] [85; 84; 70; 45; 56] 18446744073709551615]
    {| p_words := [97; 4294967295; 12]; p_maxLabel := 1; p_maxCheck := 2; p_filterOff := 0; p_filter := 5 * 2 ^ 24000 |}.
Example sample_handle_ok : handle_ok sample_handle /\ stored_bytes sample_handle < 2 ^ 31.
Proof.
  split; [|reflexivity]. split; cbn [sample_handle h_pmap h_prog p_words p_maxLabel p_maxCheck p_filterOff p_filter];
    [unfold cstring; repeat constructor..|].
  intros i Hi. rewrite N.mul_pow2_bits_high by lia. destruct (N.testbit 5 (i - 24000)) eqn:E; auto.
  exfalso. assert (i - 24000 <= 2); [|lia]. change 2 with (N.log2 5). destruct (N.leb_spec (i - 24000) (N.log2 5)); auto.
  rewrite N.bits_above_log2 in E by auto. discriminate.
Qed.

(** The size is an int while it is added up: two patterns of 2^30 bytes break it. *)
Theorem serialize_large_refuted :
  exists n, forall a b, N.of_nat (length a) = n -> N.of_nat (length b) = n ->
    pmap_marshall [mkPI a [65] 0; mkPI b [65] 0] = Throw.
Proof.
  exists 1073741824. intros a b Ha Hb. unfold pmap_marshall, pmap_bufSize. cbn [fold_left pi_pattern pi_chain length]. rewrite Ha, Hb. reflexivity.
Qed.
Print Assumptions serialize_large_refuted.

(** * C14 *)

(** Sixteen zero bytes make lg_read_program read past the end: a size of 0 is not checked against
    the fixed part of a program; and a pattern map without a terminating 0 is read past its end. *)
Theorem read_program_stays_inside_refuted :
  read_program (repeat 0 16) = UB /\ read_program (le_bytes 8 3 ++ [97; 98; 99]) = UB.
Proof. split; reflexivity. Qed.
Print Assumptions read_program_stays_inside_refuted.

(** The checks that are there do work: a buffer too short for the sizes stored in it is rejected
    without reading past its end, if what the sizes cover is complete. *)
Theorem read_program_truncated h n :
  handle_ok h -> stored_bytes h < 2 ^ 31 -> N.of_nat n < stored_bytes h ->
  forall bytes, write_program h = Ok bytes -> read_program (firstn n bytes) = Ok None.
Proof.
  intros OK Hs Hn bytes E. destruct (serialize_round_trip h [] OK Hs) as (bytes' & E' & LB & _ & _ & _). rewrite E in E'. injection E' as <-.
  destruct OK as [Hm _ _ _ _ _].
  unfold write_program in E. destruct (pmap_marshall (h_pmap h)) as [m| | |] eqn:Em; try discriminate. cbn [bind] in E.
  apply (f_equal (fun r => match r with Ok x => x | _ => [] end)) in E.
  unfold stored_bytes in *. rewrite <- pmap_content_length in *. change (2 ^ 31) with 2147483648 in Hs.
  assert (Em' : m = flat_map pinfo_bytes (h_pmap h)).
  { unfold pmap_marshall in Em. rewrite bufSize_exact in Em by (change (2 ^ 31) with 2147483648; lia).
    destruct (_ <=? _) in Em; [discriminate|]. destruct (_ <? _) in Em; [discriminate|]. injection Em as <-. rewrite Nat2N.id, Nat.sub_diag. apply app_nil_r. }
  rewrite <- Em' in *. set (p := prog_marshall (h_prog h)) in *.
  assert (LP : length p = (12 + N.to_nat 8192 + 4 * length (p_words (h_prog h)))%nat) by apply prog_length.
  cbv beta iota in E. subst bytes. unfold read_program. rewrite firstn_length. rewrite !app_length, !le_length. rewrite !app_length, !le_length in LB.
  destruct (Nat.ltb_spec (Nat.min n (8 + (length m + (8 + length p)))) 8) as [H|H]; auto.
  rewrite firstn_app, le_length. rewrite (firstn_all2 (le_bytes 8 _)) by (rewrite le_length; lia).
  rewrite rd_le by (change (256 ^ N.of_nat 8) with 18446744073709551616; lia). cbn [bind].
  rewrite firstn_length, !app_length, le_length.
  destruct (N.ltb_spec (N.of_nat (Nat.min (n - 8) (length m + (8 + length p)))) (N.of_nat (length m))) as [H1|H1]; auto.
  rewrite Nat2N.id. rewrite firstn_app. rewrite (firstn_all2 m) by lia.
  pose proof (unmarshall_pmap _ Hm (length m) (firstn (n - 8 - length m) (le_bytes 8 (N.of_nat (length p)) ++ p))) as UM.
  rewrite <- Em' in UM. rewrite UM by lia. cbn [bind].
  rewrite skipn_app, skipn_all, Nat.sub_diag. cbn [skipn app]. rewrite firstn_length, app_length, le_length.
  destruct (Nat.ltb_spec (Nat.min (n - 8 - length m) (8 + length p)) 8) as [H2|H2]; auto.
  rewrite firstn_app, le_length. rewrite (firstn_all2 (le_bytes 8 _)) by (rewrite le_length; lia).
  rewrite rd_le by (change (256 ^ N.of_nat 8) with 18446744073709551616; lia). cbn [bind].
  rewrite firstn_length.
  match goal with |- context [if ?b then _ else _] => replace b with true end; auto.
  symmetry. apply N.ltb_lt. lia.
Qed.
Print Assumptions read_program_truncated.
