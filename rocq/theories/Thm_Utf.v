(** C16, C17, C18: the Unicode encodings.  The standards are restated below, independently of
    the code; encoder and decoder are shown to implement exactly them. *)
From Verif Require Import Base UtfModel UtfProofs.
Open Scope N_scope.

(** Unicode scalar values: 0..D7FF and E000..10FFFF. *)
Definition scalar (cp : Z) : Prop := (0 <= cp < 55296)%Z \/ (57344 <= cp < 1114112)%Z.

Definition bytes (l : list N) : Prop := Forall (fun b => b < 256) l.

(** RFC 3629, section 3: the table of UTF-8 sequences, shortest form only. *)
Inductive rfc3629 : Z -> list N -> Prop :=
| U8_1 x : x < 128 -> rfc3629 (Z.of_N x) [x]                                       (* 0xxxxxxx *)
| U8_2 x y : x < 32 -> y < 64 -> 128 <= x * 64 + y ->
    rfc3629 (Z.of_N (x * 64 + y)) [192 + x; 128 + y]                               (* 110xxxxx 10xxxxxx *)
| U8_3 x y z : x < 16 -> y < 64 -> z < 64 -> 2048 <= x * 4096 + y * 64 + z ->
    scalar (Z.of_N (x * 4096 + y * 64 + z)) ->
    rfc3629 (Z.of_N (x * 4096 + y * 64 + z)) [224 + x; 128 + y; 128 + z]           (* 1110xxxx 10.. 10.. *)
| U8_4 w x y z : w < 8 -> x < 64 -> y < 64 -> z < 64 -> 65536 <= w * 262144 + x * 4096 + y * 64 + z ->
    scalar (Z.of_N (w * 262144 + x * 4096 + y * 64 + z)) ->
    rfc3629 (Z.of_N (w * 262144 + x * 4096 + y * 64 + z)) [240 + w; 128 + x; 128 + y; 128 + z].

(** A 16-bit unit [256 * hi + lo] as two bytes. *)
Definition two_bytes (le : bool) (hi lo : N) : list N := if le then [lo; hi] else [hi; lo].

(** RFC 2781, section 2.1 *)
Inductive rfc2781 (le : bool) : Z -> list N -> Prop :=
| U16_1 hi lo : hi < 256 -> lo < 256 -> scalar (Z.of_N (256 * hi + lo)) ->
    rfc2781 le (Z.of_N (256 * hi + lo)) (two_bytes le hi lo)
| U16_2 u h1 l1 h2 l2 : u < 1048576 -> l1 < 256 -> l2 < 256 ->
    256 * h1 + l1 = 55296 + u / 1024 -> 256 * h2 + l2 = 56320 + u mod 1024 ->
    rfc2781 le (Z.of_N (65536 + u)) (two_bytes le h1 l1 ++ two_bytes le h2 l2).

(** UTF-32: the code point as a four byte integer. *)
Inductive utf32 (le : bool) : Z -> list N -> Prop :=
| U32 a b c d : a < 256 -> b < 256 -> c < 256 -> d < 256 -> scalar (Z.of_N (16777216 * a + 65536 * b + 256 * c + d)) ->
    utf32 le (Z.of_N (16777216 * a + 65536 * b + 256 * c + d)) (if le then [d; c; b; a] else [a; b; c; d]).

Lemma u8_spec cp w : rfc3629 cp w <-> (0 <= cp)%Z /\ w <> [] /\ w = u8 (Z.to_N cp).
Proof.
  split.
  - destruct 1; (split; [lia|]; split; [discriminate|]); rewrite N2Z.id; unfold u8.
    + bcase. reflexivity.
    + do 2 bcase. leq.
    + match goal with H : scalar _ |- _ => unfold scalar in H end. set (c := x * 4096 + y * 64 + z) in *.
      replace (c <? 128) with false by lia. replace (c <? 2048) with false by lia.
      replace ((c <? 55296) || ((57344 <=? c) && (c <? 65536))) with true by lia. unfold c; leq.
    + match goal with H : scalar _ |- _ => unfold scalar in H end. set (c := w * 262144 + x * 4096 + y * 64 + z) in *.
      replace (c <? 128) with false by lia. replace (c <? 2048) with false by lia.
      replace ((c <? 55296) || ((57344 <=? c) && (c <? 65536))) with false by lia.
      replace ((65536 <=? c) && (c <? 1114112)) with true by lia. unfold c; leq.
  - intros (H0 & Hne & ->). rewrite <- (Z2N.id cp) at 1 by auto. set (c := Z.to_N cp) in *. clearbody c. clear H0.
    unfold u8 in *. destruct (N.ltb_spec c 128); [constructor; auto|].
    destruct (N.ltb_spec c 2048).
    { replace (Z.of_N c) with (Z.of_N (c / 64 * 64 + c mod 64)) by lia. apply U8_2; lia. }
    destruct ((c <? 55296) || ((57344 <=? c) && (c <? 65536))) eqn:E.
    { assert (c < 55296 \/ 57344 <= c < 65536) by lia.
      replace (Z.of_N c) with (Z.of_N (c / 4096 * 4096 + c / 64 mod 64 * 64 + c mod 64)) by lia. apply U8_3; try lia.
      unfold scalar. lia. }
    destruct ((65536 <=? c) && (c <? 1114112)) eqn:E2; [|congruence].
    assert (65536 <= c < 1114112) by lia.
    replace (Z.of_N c) with (Z.of_N (c / 262144 * 262144 + c / 4096 mod 64 * 4096 + c / 64 mod 64 * 64 + c mod 64)) by lia.
    apply U8_4; try lia. unfold scalar. lia.
Qed.

Lemma u8_scalar cp : u8 cp <> [] <-> scalar (Z.of_N cp).
Proof.
  unfold u8, scalar. split; intros H.
  - repeat (match goal with H : context [N.ltb ?a ?b] |- _ => destruct (N.ltb_spec a b)
                          | H : context [N.leb ?a ?b] |- _ => destruct (N.leb_spec a b) end; cbn [andb orb] in *; try lia; try congruence).
  - repeat bcase; discriminate.
Qed.

Lemma u16_spec le cp w : rfc2781 le cp w <-> (0 <= cp)%Z /\ w <> [] /\ w = u16 le (Z.to_N cp).
Proof.
  split.
  - destruct 1; (split; [lia|]; split; [destruct le; discriminate|]); rewrite N2Z.id; unfold u16.
    + match goal with H : scalar _ |- _ => unfold scalar in H end. set (c := 256 * hi + lo) in *.
      replace ((c <? 55296) || ((57344 <=? c) && (c <? 65536))) with true by lia.
      unfold two_bytes. destruct le; unfold c; leq.
    + set (c := 65536 + u) in *.
      replace ((c <? 55296) || ((57344 <=? c) && (c <? 65536))) with false by lia.
      replace ((65536 <=? c) && (c <? 1114112)) with true by lia.
      replace (c - 65536) with u by lia. rewrite <- H2, <- H3. unfold two_bytes. destruct le; cbn [app]; leq.
  - intros (H0 & Hne & ->). rewrite <- (Z2N.id cp) at 1 by auto. set (c := Z.to_N cp) in *. clearbody c. clear H0.
    unfold u16 in *. destruct ((c <? 55296) || ((57344 <=? c) && (c <? 65536))) eqn:E.
    + assert (c < 55296 \/ 57344 <= c < 65536) by lia.
      replace (Z.of_N c) with (Z.of_N (256 * (c / 256) + c mod 256)) by lia.
      change (if le then [c mod 256; c / 256] else [c / 256; c mod 256]) with (two_bytes le (c / 256) (c mod 256)).
      apply U16_1; try lia. unfold scalar. lia.
    + destruct ((65536 <=? c) && (c <? 1114112)) eqn:E2; [|congruence].
      assert (65536 <= c < 1114112) by lia.
      replace (Z.of_N c) with (Z.of_N (65536 + (c - 65536))) by lia.
      set (hi := 55296 + (c - 65536) / 1024). set (lo := 56320 + (c - 65536) mod 1024).
      replace (if le then [hi mod 256; hi / 256; lo mod 256; lo / 256] else [hi / 256; hi mod 256; lo / 256; lo mod 256])
        with (two_bytes le (hi / 256) (hi mod 256) ++ two_bytes le (lo / 256) (lo mod 256)) by (destruct le; reflexivity).
      apply U16_2; try lia.
Qed.

Lemma u16_scalar le cp : u16 le cp <> [] <-> scalar (Z.of_N cp).
Proof.
  unfold u16, scalar. split; intros H.
  - repeat (match goal with H : context [N.ltb ?a ?b] |- _ => destruct (N.ltb_spec a b)
                          | H : context [N.leb ?a ?b] |- _ => destruct (N.leb_spec a b) end; cbn [andb orb] in *; try lia; try congruence).
  - repeat bcase; destruct le; discriminate.
Qed.

Lemma u32_spec le cp w : utf32 le cp w <-> (0 <= cp)%Z /\ w <> [] /\ w = u32 le (Z.to_N cp).
Proof.
  split.
  - destruct 1. split; [lia|]. split; [destruct le; discriminate|]. rewrite N2Z.id. unfold u32.
    match goal with H : scalar _ |- _ => unfold scalar in H end. set (e := 16777216 * a + 65536 * b + 256 * c + d) in *.
    replace ((e <? 55296) || ((57344 <=? e) && (e <? 1114112))) with true by lia. destruct le; unfold e in *; leq.
  - intros (H0 & Hne & ->). rewrite <- (Z2N.id cp) at 1 by auto. set (c := Z.to_N cp) in *. clearbody c. clear H0.
    unfold u32 in *. destruct ((c <? 55296) || ((57344 <=? c) && (c <? 1114112))) eqn:E; [|congruence].
    assert (c < 55296 \/ 57344 <= c < 1114112) by lia.
    replace (Z.of_N c) with (Z.of_N (16777216 * 0 + 65536 * (c / 65536) + 256 * (c / 256 mod 256) + c mod 256)) by lia.
    apply U32; try lia. unfold scalar. lia.
Qed.

Lemma u32_scalar le cp : u32 le cp <> [] <-> scalar (Z.of_N cp).
Proof.
  unfold u32, scalar. split; intros H.
  - repeat (match goal with H : context [N.ltb ?a ?b] |- _ => destruct (N.ltb_spec a b)
                          | H : context [N.leb ?a ?b] |- _ => destruct (N.leb_spec a b) end; cbn [andb orb] in *; try lia; try congruence).
  - repeat bcase; destruct le; discriminate.
Qed.

Lemma scalar_nonneg cp : scalar cp -> (0 <= cp)%Z. Proof. unfold scalar; lia. Qed.

(** Encoding succeeds on exactly the scalar values, and writes the sequence of the standard. *)
Theorem utf8_encodes_exactly cp :
  (scalar cp -> rfc3629 cp (cp_to_utf8 cp)) /\ (~ scalar cp -> cp_to_utf8 cp = []).
Proof.
  unfold cp_to_utf8. rewrite utf8_bytes_u8. split; intros H.
  - pose proof (scalar_nonneg _ H). destruct (Z.ltb_spec cp 0); [lia|]. apply u8_spec. split; auto. split; auto.
    apply u8_scalar. rewrite Z2N.id; auto.
  - destruct (Z.ltb_spec cp 0); auto. destruct (u8 (Z.to_N cp)) eqn:E; auto. exfalso. apply H.
    rewrite <- (Z2N.id cp) by auto. apply u8_scalar. congruence.
Qed.
Print Assumptions utf8_encodes_exactly.

(** Decoding any bytes succeeds iff they start with the encoding of a code point, and then
    returns that code point and the length of its encoding. *)
Theorem utf8_decodes_exactly l n cp : bytes l ->
  (utf8_to_cp l = Some (n, cp) <-> exists w rest, l = w ++ rest /\ n = length w /\ rfc3629 (Z.of_N cp) w).
Proof.
  intros Hl. split.
  - intros H. destruct (u8_sound _ _ _ Hl H) as (E & Hne & En). exists (u8 cp), (skipn n l).
    split; [rewrite E; symmetry; apply firstn_skipn|]. split; auto. apply u8_spec. rewrite N2Z.id. split; [lia|auto].
  - intros (w & rest & -> & -> & H). apply u8_spec in H as (_ & Hne & ->). rewrite N2Z.id in *. apply u8_decode; auto.
Qed.
Print Assumptions utf8_decodes_exactly.

(** No two code points have the same encoding, and no encoding is a prefix of another. *)
Theorem utf8_prefix_free cp1 cp2 rest : scalar cp1 -> scalar cp2 ->
  (exists rest2, cp_to_utf8 cp1 ++ rest = cp_to_utf8 cp2 ++ rest2) -> cp1 = cp2.
Proof.
  intros H1 H2 [rest2 E]. pose proof (scalar_nonneg _ H1). pose proof (scalar_nonneg _ H2).
  unfold cp_to_utf8 in E. destruct (Z.ltb_spec cp1 0), (Z.ltb_spec cp2 0); try lia. rewrite !utf8_bytes_u8 in E.
  assert (D1 : utf8_to_cp (u8 (Z.to_N cp1) ++ rest) = Some (length (u8 (Z.to_N cp1)), Z.to_N cp1))
    by (apply u8_decode, u8_scalar; rewrite Z2N.id; auto).
  assert (D2 : utf8_to_cp (u8 (Z.to_N cp2) ++ rest2) = Some (length (u8 (Z.to_N cp2)), Z.to_N cp2))
    by (apply u8_decode, u8_scalar; rewrite Z2N.id; auto).
  rewrite E in D1. rewrite D1 in D2. injection D2 as _ D2. lia.
Qed.
Print Assumptions utf8_prefix_free.

Theorem utf16_encodes_exactly le cp :
  (scalar cp -> rfc2781 le cp (cp_to_utf16 le cp)) /\ (~ scalar cp -> cp_to_utf16 le cp = []).
Proof.
  unfold cp_to_utf16. rewrite utf16_bytes_u16. split; intros H.
  - pose proof (scalar_nonneg _ H). destruct (Z.ltb_spec cp 0); [lia|]. apply u16_spec. split; auto. split; auto.
    apply u16_scalar. rewrite Z2N.id; auto.
  - destruct (Z.ltb_spec cp 0); auto. destruct (u16 le (Z.to_N cp)) eqn:E; auto. exfalso. apply H.
    rewrite <- (Z2N.id cp) by auto. apply (u16_scalar le). congruence.
Qed.
Print Assumptions utf16_encodes_exactly.

Theorem utf16_decodes_exactly le l n cp : bytes l ->
  (utf16_to_cp le l = Some (n, cp) <-> exists w rest, l = w ++ rest /\ n = length w /\ rfc2781 le (Z.of_N cp) w).
Proof.
  intros Hl. split.
  - intros H. destruct (u16_sound _ _ _ _ Hl H) as (E & Hne & En). exists (u16 le cp), (skipn n l).
    split; [rewrite E; symmetry; apply firstn_skipn|]. split; auto. apply u16_spec. rewrite N2Z.id. split; [lia|auto].
  - intros (w & rest & -> & -> & H). apply u16_spec in H as (_ & Hne & ->). rewrite N2Z.id in *. apply u16_decode; auto.
Qed.
Print Assumptions utf16_decodes_exactly.

Theorem utf32_encodes_exactly le cp :
  (scalar cp -> utf32 le cp (cp_to_utf32 le cp)) /\ (~ scalar cp -> cp_to_utf32 le cp = []).
Proof.
  unfold cp_to_utf32. rewrite utf32_bytes_u32. split; intros H.
  - pose proof (scalar_nonneg _ H). destruct (Z.ltb_spec cp 0); [lia|]. apply u32_spec. split; auto. split; auto.
    apply u32_scalar. rewrite Z2N.id; auto.
  - destruct (Z.ltb_spec cp 0); auto. destruct (u32 le (Z.to_N cp)) eqn:E; auto. exfalso. apply H.
    rewrite <- (Z2N.id cp) by auto. apply (u32_scalar le). congruence.
Qed.
Print Assumptions utf32_encodes_exactly.

Theorem utf32_decodes_exactly le l n cp : bytes l ->
  (utf32_to_cp le l = Some (n, cp) <-> exists w rest, l = w ++ rest /\ n = length w /\ utf32 le (Z.of_N cp) w).
Proof.
  intros Hl. split.
  - intros H. destruct (u32_sound _ _ _ _ Hl H) as (E & Hne & En). exists (u32 le cp), (skipn n l).
    split; [rewrite E; symmetry; apply firstn_skipn|]. split; auto. apply u32_spec. rewrite N2Z.id. split; [lia|auto].
  - intros (w & rest & -> & -> & H). apply u32_spec in H as (_ & Hne & ->). rewrite N2Z.id in *. apply u32_decode; auto.
Qed.
Print Assumptions utf32_decodes_exactly.

(** Cases: a code point of each length, a surrogate, an overlong form, a lone surrogate. *)
Example utf_examples :
  scalar 128169 /\ ~ scalar 55357 /\
  cp_to_utf8 128169 = [240; 159; 146; 169] /\ cp_to_utf8 8364 = [226; 130; 172] /\ cp_to_utf8 55357 = [] /\
  utf8_to_cp [240; 159; 146; 169; 33] = Some (4%nat, 128169) /\ utf8_to_cp [192; 128] = None /\ utf8_to_cp [237; 160; 189] = None /\
  cp_to_utf16 true 128169 = [61; 216; 169; 220] /\ utf16_to_cp false [216; 61; 220; 169] = Some (4%nat, 128169) /\
  utf16_to_cp true [61; 216; 65; 0] = None /\ cp_to_utf32 false 128169 = [0; 1; 244; 169] /\
  utf32_to_cp true [0; 0; 17; 0] = None.
Proof. repeat split; try reflexivity; unfold scalar; lia. Qed.
