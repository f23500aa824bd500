From Verif Require Import Base UtfModel.
Open Scope N_scope.

Lemma lor_add a b k : a mod 2 ^ k = 0 -> b < 2 ^ k -> N.lor a b = a + b.
Proof.
  intros Ha Hb. assert (D : N.land a b = 0).
  { apply N.bits_inj_0. intros j. rewrite N.land_spec. destruct (N.lt_ge_cases j k).
    - rewrite <- (N.mod_pow2_bits_low a k) by auto. rewrite Ha, N.bits_0. reflexivity.
    - destruct (N.eq_dec b 0) as [->|]; [rewrite N.bits_0; apply andb_false_r|].
      rewrite (N.bits_above_log2 b); [apply andb_false_r|]. apply N.lt_le_trans with k; auto. apply N.log2_lt_pow2; auto. lia. }
  rewrite <- N.lxor_lor by auto. symmetry. apply N.add_nocarry_lxor. auto.
Qed.

Lemma land_1 x : N.land x 1 = x mod 2. Proof. apply (N.land_ones x 1). Qed.
Lemma land_7 x : N.land x 7 = x mod 8. Proof. apply (N.land_ones x 3). Qed.
Lemma land_15 x : N.land x 15 = x mod 16. Proof. apply (N.land_ones x 4). Qed.
Lemma land_31 x : N.land x 31 = x mod 32. Proof. apply (N.land_ones x 5). Qed.
Lemma land_63 x : N.land x 63 = x mod 64. Proof. apply (N.land_ones x 6). Qed.
Lemma land_255 x : N.land x 255 = x mod 256. Proof. apply (N.land_ones x 8). Qed.
Lemma land_1023 x : N.land x 1023 = x mod 1024. Proof. apply (N.land_ones x 10). Qed.
Lemma shr_6 x : N.shiftr x 6 = x / 64. Proof. apply (N.shiftr_div_pow2 x 6). Qed.
Lemma shr_8 x : N.shiftr x 8 = x / 256. Proof. apply (N.shiftr_div_pow2 x 8). Qed.
Lemma shr_10 x : N.shiftr x 10 = x / 1024. Proof. apply (N.shiftr_div_pow2 x 10). Qed.
Lemma shr_12 x : N.shiftr x 12 = x / 4096. Proof. apply (N.shiftr_div_pow2 x 12). Qed.
Lemma shr_16 x : N.shiftr x 16 = x / 65536. Proof. apply (N.shiftr_div_pow2 x 16). Qed.
Lemma shr_18 x : N.shiftr x 18 = x / 262144. Proof. apply (N.shiftr_div_pow2 x 18). Qed.
Lemma shr_24 x : N.shiftr x 24 = x / 16777216. Proof. apply (N.shiftr_div_pow2 x 24). Qed.
Lemma shl_6 x : N.shiftl x 6 = x * 64. Proof. apply (N.shiftl_mul_pow2 x 6). Qed.
Lemma shl_8 x : N.shiftl x 8 = x * 256. Proof. apply (N.shiftl_mul_pow2 x 8). Qed.
Lemma shl_10 x : N.shiftl x 10 = x * 1024. Proof. apply (N.shiftl_mul_pow2 x 10). Qed.
Lemma shl_16 x : N.shiftl x 16 = x * 65536. Proof. apply (N.shiftl_mul_pow2 x 16). Qed.
Lemma shl_24 x : N.shiftl x 24 = x * 16777216. Proof. apply (N.shiftl_mul_pow2 x 24). Qed.

Ltac arith := rewrite ?land_7, ?land_15, ?land_31, ?land_63, ?land_255, ?land_1023, ?shr_6, ?shr_8, ?shr_10, ?shr_12,
  ?shr_16, ?shr_18, ?shr_24, ?shl_6, ?shl_8, ?shl_10, ?shl_16, ?shl_24.

Lemma lor_top6 a x : a mod 64 = 0 -> N.lor a (x mod 64) = a + x mod 64.
Proof. intros. apply (lor_add a _ 6); auto. change (2^6) with 64. lia. Qed.

Ltac leq := repeat (match goal with |- _ :: _ = _ :: _ => apply (f_equal2 (@cons N)) end); try reflexivity; try lia.

(** Arithmetic form of the UTF-8 encoder. *)
Definition u8 (cp : N) : list N :=
  if cp <? 128 then [cp]
  else if cp <? 2048 then [192 + cp / 64; 128 + cp mod 64]
  else if (cp <? 55296) || ((57344 <=? cp) && (cp <? 65536)) then
    [224 + cp / 4096; 128 + cp / 64 mod 64; 128 + cp mod 64]
  else if (65536 <=? cp) && (cp <? 1114112) then
    [240 + cp / 262144; 128 + cp / 4096 mod 64; 128 + cp / 64 mod 64; 128 + cp mod 64]
  else [].

Lemma utf8_bytes_u8 cp : utf8_bytes cp = u8 cp.
Proof.
  unfold utf8_bytes, u8. arith.
  destruct (N.ltb_spec cp 128); [f_equal; lia|].
  destruct (N.ltb_spec cp 2048).
  { rewrite lor_top6 by reflexivity. rewrite (lor_add 192 _ 5) by (change (2^5) with 32; lia). leq. }
  assert (E3 : cp < 65536 -> [N.lor 224 ((cp / 4096) mod 16); N.lor 128 ((cp / 64) mod 64); N.lor 128 (cp mod 64)]
       = [224 + cp / 4096; 128 + cp / 64 mod 64; 128 + cp mod 64]).
  { intros. rewrite !lor_top6 by reflexivity. rewrite (lor_add 224 _ 4) by (change (2^4) with 16; lia). leq. }
  destruct (N.ltb_spec cp 55296); cbn [orb]; [apply E3; lia|].
  destruct (N.ltb_spec cp 57344), (N.leb_spec 57344 cp), (N.leb_spec 65536 cp), (N.ltb_spec cp 65536), (N.ltb_spec cp 1114112); cbn [andb]; try lia; auto.
  rewrite !lor_top6 by reflexivity. rewrite (lor_add 240 _ 3) by (change (2^3) with 8; lia). leq.
Qed.

Lemma continuation_eq l cp : continuation l cp =
  match l with
  | [] => None
  | x :: r => if (128 <=? x mod 256) && (x mod 256 <? 192) then Some (r, cp * 64 + x mod 64) else None
  end.
Proof.
  unfold continuation. destruct l as [|x r]; auto. arith. rewrite lor_top6 by lia.
  replace ((x mod 256) mod 64) with (x mod 64) by lia.
  destruct (N.ltb_spec (x mod 256) 128), (N.leb_spec 128 (x mod 256)), (N.ltb_spec 191 (x mod 256)), (N.ltb_spec (x mod 256) 192);
    cbn [orb andb]; auto; lia.
Qed.

Definition is_cont (x : N) := 128 <= x < 192.

Ltac bcase := match goal with
  | |- context [N.ltb ?a ?b] => destruct (N.ltb_spec a b)
  | |- context [N.leb ?a ?b] => destruct (N.leb_spec a b)
  | |- context [N.eqb ?a ?b] => destruct (N.eqb_spec a b)
  end; cbn [andb orb negb]; try lia.
Ltac bcase_in H := match type of H with
  | context [N.ltb ?a ?b] => destruct (N.ltb_spec a b)
  | context [N.leb ?a ?b] => destruct (N.leb_spec a b)
  end; cbn [andb orb negb] in H; try discriminate; try lia.

Lemma u8_decode cp rest : u8 cp <> [] -> utf8_to_cp (u8 cp ++ rest) = Some (length (u8 cp), cp).
Proof.
  unfold u8. intros Hne.
  destruct (N.ltb_spec cp 128).
  { cbn [app utf8_to_cp length]. arith. rewrite N.mod_small by lia. bcase. reflexivity. }
  destruct (N.ltb_spec cp 2048).
  { cbn [app utf8_to_cp length]. arith. set (x := 192 + cp / 64). assert (Hx : 194 <= x < 224) by (unfold x; lia).
    rewrite (N.mod_small x) by lia. do 3 bcase.
    rewrite continuation_eq. set (y := 128 + cp mod 64). assert (Hy : 128 <= y < 192) by (unfold y; lia).
    rewrite (N.mod_small y 256) by lia. do 2 bcase. f_equal. f_equal. unfold x, y. lia. }
  destruct ((cp <? 55296) || ((57344 <=? cp) && (cp <? 65536))) eqn:E3.
  { cbn [app utf8_to_cp length]. arith. assert (Hc : cp < 55296 \/ 57344 <= cp < 65536) by lia.
    set (x := 224 + cp / 4096). assert (Hx : x < 240) by (unfold x; lia). assert (Hx2 : 224 <= x) by (unfold x; lia).
    rewrite (N.mod_small x) by lia. do 3 bcase.
    rewrite continuation_eq. set (y := 128 + cp / 64 mod 64). assert (Hy : 128 <= y < 192) by (unfold y; lia).
    rewrite (N.mod_small y 256) by lia. do 2 bcase.
    rewrite continuation_eq. set (z := 128 + cp mod 64). assert (Hz : 128 <= z < 192) by (unfold z; lia).
    rewrite (N.mod_small z 256) by lia. do 2 bcase.
    replace ((x mod 16 * 64 + y mod 64) * 64 + z mod 64) with cp by (unfold x, y, z; lia).
    repeat bcase; auto. }
  destruct ((65536 <=? cp) && (cp <? 1114112)) eqn:E4; [|congruence].
  cbn [app utf8_to_cp length]. arith. assert (Hc : 65536 <= cp < 1114112) by lia.
  set (x := 240 + cp / 262144). assert (Hx : 240 <= x < 245) by (unfold x; lia).
  rewrite (N.mod_small x) by lia. do 4 bcase.
  rewrite continuation_eq. set (w := 128 + cp / 4096 mod 64). assert (Hw : 128 <= w < 192) by (unfold w; lia).
  rewrite (N.mod_small w 256) by lia. do 2 bcase.
  rewrite continuation_eq. set (y := 128 + cp / 64 mod 64). assert (Hy : 128 <= y < 192) by (unfold y; lia).
  rewrite (N.mod_small y 256) by lia. do 2 bcase.
  rewrite continuation_eq. set (z := 128 + cp mod 64). assert (Hz : 128 <= z < 192) by (unfold z; lia).
  rewrite (N.mod_small z 256) by lia. do 2 bcase.
  replace (((x mod 8 * 64 + w mod 64) * 64 + y mod 64) * 64 + z mod 64) with cp by (unfold x, y, w, z; lia).
  repeat bcase; auto.
Qed.

Lemma u8_sound l n cp : Forall (fun b => b < 256) l -> utf8_to_cp l = Some (n, cp) ->
  u8 cp = firstn n l /\ u8 cp <> [] /\ n = length (u8 cp).
Proof.
  intros Hl H. destruct l as [|x r]; [discriminate|]. inversion_clear Hl as [|? ? Hx Hr].
  cbn [utf8_to_cp] in H. rewrite land_255, (N.mod_small x) in H by auto.
  destruct (N.ltb_spec x 128).
  { injection H as <- <-. unfold u8. bcase. repeat split; auto; discriminate. }
  rewrite land_31, land_15, land_7 in H.
  destruct (N.ltb_spec x 224).
  { bcase_in H. rewrite continuation_eq in H. destruct r as [|y r]; [discriminate|]. inversion_clear Hr as [|? ? Hy Hr2].
    rewrite (N.mod_small y) in H by auto. do 2 bcase_in H. injection H as <- <-.
    set (cp := x mod 32 * 64 + y mod 64). assert (128 <= cp < 2048) by (unfold cp; lia).
    unfold u8. bcase. bcase. cbn [firstn length]. split; [|split; [discriminate|reflexivity]].
    replace (192 + cp / 64) with x by (unfold cp; lia). replace (128 + cp mod 64) with y by (unfold cp; lia). auto. }
  destruct (N.ltb_spec x 240).
  { rewrite continuation_eq in H. destruct r as [|y r]; [discriminate|]. inversion_clear Hr as [|? ? Hy Hr2].
    rewrite (N.mod_small y) in H by auto. do 2 bcase_in H.
    rewrite continuation_eq in H. destruct r as [|z r]; [discriminate|]. inversion_clear Hr2 as [|? ? Hz Hr].
    rewrite (N.mod_small z) in H by auto. do 2 bcase_in H.
    set (cp' := (x mod 16 * 64 + y mod 64) * 64 + z mod 64) in *.
    assert (Hc : 2048 <= cp' < 65536 /\ (cp' < 55296 \/ 57344 <= cp')).
    { unfold cp' in *. clearbody cp'. repeat bcase_in H. }
    replace ((cp' <? 2048) || ((55295 <? cp') && (cp' <? 57344))) with false in H by (clearbody cp'; lia).
    injection H as <- <-. unfold u8. do 2 bcase.
    replace ((cp' <? 55296) || ((57344 <=? cp') && (cp' <? 65536))) with true by (clearbody cp'; lia).
    cbn [firstn length]. split; [|split; [discriminate|reflexivity]].
    replace (224 + cp' / 4096) with x by (unfold cp'; lia). replace (128 + cp' / 64 mod 64) with y by (unfold cp'; lia).
    replace (128 + cp' mod 64) with z by (unfold cp'; lia). auto. }
  destruct (N.ltb_spec x 245); [|discriminate].
  rewrite continuation_eq in H. destruct r as [|w r]; [discriminate|]. inversion_clear Hr as [|? ? Hw Hr2].
  rewrite (N.mod_small w) in H by auto. do 2 bcase_in H.
  rewrite continuation_eq in H. destruct r as [|y r]; [discriminate|]. inversion_clear Hr2 as [|? ? Hy Hr].
  rewrite (N.mod_small y) in H by auto. do 2 bcase_in H.
  rewrite continuation_eq in H. destruct r as [|z r]; [discriminate|]. inversion_clear Hr as [|? ? Hz Hr2].
  rewrite (N.mod_small z) in H by auto. do 2 bcase_in H.
  set (cp' := ((x mod 8 * 64 + w mod 64) * 64 + y mod 64) * 64 + z mod 64) in *.
  assert (Hc : 65536 <= cp' < 1114112). { clearbody cp'. repeat bcase_in H. }
  replace ((cp' <? 65536) || (1114111 <? cp')) with false in H by (clearbody cp'; lia).
  injection H as <- <-. unfold u8. do 2 bcase.
  replace ((cp' <? 55296) || ((57344 <=? cp') && (cp' <? 65536))) with false by (clearbody cp'; lia).
  replace ((65536 <=? cp') && (cp' <? 1114112)) with true by (clearbody cp'; lia).
  cbn [firstn length]. split; [|split; [discriminate|reflexivity]].
  replace (240 + cp' / 262144) with x by (unfold cp'; lia). replace (128 + cp' / 4096 mod 64) with w by (unfold cp'; lia).
  replace (128 + cp' / 64 mod 64) with y by (unfold cp'; lia). replace (128 + cp' mod 64) with z by (unfold cp'; lia). auto.
Qed.

(** * UTF-16 *)
Lemma unit16_eq le x y : x < 256 -> y < 256 -> unit16 le x y = if le then x + 256 * y else y + 256 * x.
Proof.
  intros. unfold unit16. arith. destruct le.
  - rewrite N.lor_comm, (lor_add _ _ 8); try (change (2^8) with 256; lia).
  - rewrite N.lor_comm, (lor_add _ _ 8); try (change (2^8) with 256; lia).
Qed.

Lemma bytes16_eq le u : u < 65536 -> bytes16 le u = if le then [u mod 256; u / 256] else [u / 256; u mod 256].
Proof. intros. unfold bytes16. arith. rewrite (N.mod_small (u / 256)) by lia. reflexivity. Qed.

Definition u16 (le : bool) (cp : N) : list N :=
  if (cp <? 55296) || ((57344 <=? cp) && (cp <? 65536)) then
    if le then [cp mod 256; cp / 256] else [cp / 256; cp mod 256]
  else if (65536 <=? cp) && (cp <? 1114112) then
    let hi := 55296 + (cp - 65536) / 1024 in
    let lo := 56320 + (cp - 65536) mod 1024 in
    if le then [hi mod 256; hi / 256; lo mod 256; lo / 256] else [hi / 256; hi mod 256; lo / 256; lo mod 256]
  else [].

Lemma utf16_bytes_u16 le cp : utf16_bytes le cp = u16 le cp.
Proof.
  unfold utf16_bytes, u16. arith. unfold two16. change (65536 / 1024) with 64.
  destruct (N.ltb_spec cp 55296); cbn [orb]; [rewrite bytes16_eq by lia; auto|].
  destruct (N.ltb_spec cp 57344), (N.leb_spec 57344 cp), (N.leb_spec 65536 cp), (N.ltb_spec cp 65536), (N.ltb_spec cp 1114112); cbn [andb]; try lia; auto.
  - rewrite !bytes16_eq by lia.
    replace ((55296 - 64 + cp / 1024) mod 65536) with (55296 + (cp - 65536) / 1024) by lia.
    replace ((56320 + cp mod 1024) mod 65536) with (56320 + (cp - 65536) mod 1024) by lia.
    destruct le; reflexivity.
  - rewrite bytes16_eq by lia; auto.
Qed.

Lemma u16_decode le cp rest : u16 le cp <> [] -> utf16_to_cp le (u16 le cp ++ rest) = Some (length (u16 le cp), cp).
Proof.
  unfold u16. intros Hne.
  destruct ((cp <? 55296) || ((57344 <=? cp) && (cp <? 65536))) eqn:E.
  { assert (Hc : cp < 55296 \/ 57344 <= cp < 65536) by lia.
    destruct le; cbn [app utf16_to_cp length]; rewrite unit16_eq by lia.
    - replace (cp mod 256 + 256 * (cp / 256)) with cp by lia. repeat bcase; auto.
    - replace (cp mod 256 + 256 * (cp / 256)) with cp by lia. repeat bcase; auto. }
  destruct ((65536 <=? cp) && (cp <? 1114112)) eqn:E2; [|congruence].
  assert (Hc : 65536 <= cp < 1114112) by lia.
  set (hi := 55296 + (cp - 65536) / 1024). set (lo := 56320 + (cp - 65536) mod 1024).
  assert (Hhi : 55296 <= hi < 56320) by (unfold hi; lia). assert (Hlo : 56320 <= lo < 57344) by (unfold lo; lia).
  assert (R : N.lor (N.shiftl (hi mod two16 - (55296 - N.shiftr 65536 10)) 10) (lo mod two16 - 56320) = cp).
  { arith. change (65536 / 1024) with 64. unfold two16. rewrite !N.mod_small by lia.
    rewrite (lor_add _ _ 10); try (change (2^10) with 1024; lia). }
  destruct le; cbn [app utf16_to_cp length].
  - rewrite !unit16_eq by lia.
    replace (hi mod 256 + 256 * (hi / 256)) with hi by lia. replace (lo mod 256 + 256 * (lo / 256)) with lo by lia.
    rewrite R. unfold two16. rewrite (N.mod_small lo) by lia. repeat bcase; auto.
  - rewrite !unit16_eq by lia.
    replace (hi mod 256 + 256 * (hi / 256)) with hi by lia. replace (lo mod 256 + 256 * (lo / 256)) with lo by lia.
    rewrite R. unfold two16. rewrite (N.mod_small lo) by lia. repeat bcase; auto.
Qed.

Lemma u16_sound le l n cp : Forall (fun b => b < 256) l -> utf16_to_cp le l = Some (n, cp) ->
  u16 le cp = firstn n l /\ u16 le cp <> [] /\ n = length (u16 le cp).
Proof.
  intros Hl H. destruct l as [|x0 [|x1 r]]; try discriminate.
  inversion_clear Hl as [|? ? H0 Hl1]. inversion_clear Hl1 as [|? ? H1 Hl2].
  cbn [utf16_to_cp] in H. set (u := unit16 le x0 x1) in *.
  assert (Hu : u < 65536 /\ [x0; x1] = if le then [u mod 256; u / 256] else [u / 256; u mod 256]).
  { unfold u. rewrite unit16_eq by auto. destruct le; (split; [lia|]); leq. }
  destruct Hu as [Hu Eu]. clearbody u.
  assert (D : (u < 55296 \/ 57344 <= u) -> u16 le u = [x0; x1]).
  { intros Hd. unfold u16. replace ((u <? 55296) || ((57344 <=? u) && (u <? 65536))) with true by lia. auto. }
  destruct (N.ltb_spec u 55296).
  { injection H as <- <-. rewrite D by auto. repeat split; auto; discriminate. }
  destruct (N.ltb_spec u 56320).
  2:{ bcase_in H. injection H as <- <-. rewrite D by lia. repeat split; auto; discriminate. }
  destruct r as [|x2 [|x3 r]]; try discriminate.
  inversion_clear Hl2 as [|? ? Hb2 Hl3]. inversion_clear Hl3 as [|? ? Hb3 Hl4].
  set (v := unit16 le x2 x3) in *.
  assert (Hv : v < 65536 /\ [x2; x3] = if le then [v mod 256; v / 256] else [v / 256; v mod 256]).
  { unfold v. rewrite unit16_eq by auto. destruct le; (split; [lia|]); leq. }
  destruct Hv as [Hv Ev]. clearbody v. unfold two16 in H. rewrite (N.mod_small v), (N.mod_small u) in H by auto.
  do 2 bcase_in H.
  revert H. arith. change (65536 / 1024) with 64.
  rewrite (lor_add _ _ 10); try (change (2^10) with 1024; lia).
  set (c := (u - (55296 - 64)) * 1024 + (v - 56320)). intros H'. injection H' as <- <-.
  assert (Hc : 65536 <= c < 1114112) by (unfold c; lia).
  unfold u16. replace ((c <? 55296) || ((57344 <=? c) && (c <? 65536))) with false by lia.
  replace ((65536 <=? c) && (c <? 1114112)) with true by lia.
  replace (55296 + (c - 65536) / 1024) with u by (unfold c; lia). replace (56320 + (c - 65536) mod 1024) with v by (unfold c; lia).
  cbn [firstn]. destruct le; injection Eu as -> ->; injection Ev as -> ->; repeat split; auto; discriminate.
Qed.

(** * UTF-32 *)
Definition u32 (le : bool) (cp : N) : list N :=
  if (cp <? 55296) || ((57344 <=? cp) && (cp <? 1114112)) then
    if le then [cp mod 256; cp / 256 mod 256; cp / 65536; 0] else [0; cp / 65536; cp / 256 mod 256; cp mod 256]
  else [].

Lemma bytes32_eq le cp : cp < 1114112 ->
  bytes32 le cp = if le then [cp mod 256; cp / 256 mod 256; cp / 65536; 0] else [0; cp / 65536; cp / 256 mod 256; cp mod 256].
Proof.
  intros. unfold bytes32. arith.
  rewrite (N.mod_small (cp / 65536)) by lia. replace (cp / 16777216 mod 256) with 0 by lia. destruct le; reflexivity.
Qed.

Lemma utf32_bytes_u32 le cp : utf32_bytes le cp = u32 le cp.
Proof.
  unfold utf32_bytes, u32. destruct (N.ltb_spec cp 55296); cbn [orb]; [apply bytes32_eq; lia|].
  destruct (N.ltb_spec cp 57344), (N.leb_spec 57344 cp), (N.ltb_spec cp 1114112); cbn [andb]; try lia; auto.
  apply bytes32_eq; lia.
Qed.

Lemma word32_eq a b c d : a < 256 -> b < 256 -> c < 256 -> d < 256 ->
  N.lor (N.lor (N.lor a (N.shiftl b 8)) (N.shiftl c 16)) (N.shiftl d 24) = a + 256 * b + 65536 * c + 16777216 * d.
Proof.
  intros. arith.
  rewrite (N.lor_comm a), (lor_add (b * 256) _ 8); try (change (2^8) with 256; lia).
  rewrite (N.lor_comm _ (c * 65536)), (lor_add (c * 65536) _ 16); try (change (2^16) with 65536; lia).
  rewrite (N.lor_comm _ (d * 16777216)), (lor_add (d * 16777216) _ 24); try (change (2^24) with 16777216; lia).
Qed.

Lemma u32_decode le cp rest : u32 le cp <> [] -> utf32_to_cp le (u32 le cp ++ rest) = Some (length (u32 le cp), cp).
Proof.
  unfold u32. intros Hne. destruct ((cp <? 55296) || ((57344 <=? cp) && (cp <? 1114112))) eqn:E; [|congruence].
  assert (Hc : cp < 55296 \/ 57344 <= cp < 1114112) by lia.
  destruct le; cbn [app utf32_to_cp length]; rewrite word32_eq by lia;
    replace (cp mod 256 + 256 * (cp / 256 mod 256) + 65536 * (cp / 65536) + 16777216 * 0) with cp by lia;
    repeat bcase; auto.
Qed.

Lemma u32_sound le l n cp : Forall (fun b => b < 256) l -> utf32_to_cp le l = Some (n, cp) ->
  u32 le cp = firstn n l /\ u32 le cp <> [] /\ n = length (u32 le cp).
Proof.
  intros Hl H. destruct l as [|x0 [|x1 [|x2 [|x3 r]]]]; try discriminate.
  inversion_clear Hl as [|? ? H0 Hl1]. inversion_clear Hl1 as [|? ? H1 Hl2].
  inversion_clear Hl2 as [|? ? H2 Hl3]. inversion_clear Hl3 as [|? ? H3 Hl4].
  cbn [utf32_to_cp] in H. rewrite !word32_eq in H by auto.
  destruct le.
  - set (u := x0 + 256 * x1 + 65536 * x2 + 16777216 * x3) in *.
    assert (Hc : (u < 55296 \/ 57344 <= u < 1114112) /\ n = 4%nat /\ cp = u).
    { clearbody u. destruct ((2147483648 <=? u) || ((55296 <=? u) && (u <? 57344)) || (1114112 <=? u)) eqn:E; [discriminate|].
      injection H as <- <-. repeat split; lia. }
    destruct Hc as (Hc & -> & ->). unfold u32. replace ((u <? 55296) || ((57344 <=? u) && (u <? 1114112))) with true by (clearbody u; lia).
    cbn [firstn length]. split; [|split; [discriminate|reflexivity]]. unfold u in *; leq.
  - set (u := x3 + 256 * x2 + 65536 * x1 + 16777216 * x0) in *.
    assert (Hc : (u < 55296 \/ 57344 <= u < 1114112) /\ n = 4%nat /\ cp = u).
    { clearbody u. destruct ((2147483648 <=? u) || ((55296 <=? u) && (u <? 57344)) || (1114112 <=? u)) eqn:E; [discriminate|].
      injection H as <- <-. repeat split; lia. }
    destruct Hc as (Hc & -> & ->). unfold u32. replace ((u <? 55296) || ((57344 <=? u) && (u <? 1114112))) with true by (clearbody u; lia).
    cbn [firstn length]. split; [|split; [discriminate|reflexivity]]. unfold u in *; leq.
Qed.
