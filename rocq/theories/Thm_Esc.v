(** C39: numeric escapes. *)
From Verif Require Import Base EscModel.
Open Scope Z_scope.

(** The value of a digit in the base 16 or 8, and of a numeral. *)
Inductive digit : Z -> Z -> Prop :=
| D09 c : 48 <= c <= 57 -> digit c (c - 48)
| DAF c : 65 <= c <= 70 -> digit c (c - 55)
| Daf c : 97 <= c <= 102 -> digit c (c - 87).
Inductive odigit : Z -> Z -> Prop := D07 c : 48 <= c <= 55 -> odigit c (c - 48).

Inductive numeral (dig : Z -> Z -> Prop) (base : Z) : list Z -> Z -> Prop :=
| NumNil : numeral dig base [] 0
| NumSnoc s c v d : numeral dig base s v -> dig c d -> numeral dig base (s ++ [c]) (v * base + d).

Lemma lor_shift v d k : 0 <= v -> 0 <= d < 2 ^ k -> 0 <= k -> Z.lor (Z.shiftl v k) d = v * 2 ^ k + d.
Proof.
  intros Hv Hd Hk. rewrite Z.shiftl_mul_pow2 by auto.
  assert (E : Z.land (v * 2 ^ k) d = 0).
  { apply Z.bits_inj'. intros i Hi. rewrite Z.land_spec, Z.bits_0. destruct (Z.lt_ge_cases i k).
    - rewrite Z.mul_pow2_bits_low by auto. auto.
    - rewrite <- (Z.mod_small d (2 ^ k)) by auto. rewrite Z.mod_pow2_bits_high by lia. apply andb_false_r. }
  rewrite <- Z.lxor_lor, <- Z.add_nocarry_lxor by auto. reflexivity.
Qed.

Lemma digit_range c d : digit c d -> 0 <= d < 16.
Proof. inversion 1; subst; lia. Qed.
Lemma digit_fun c d d' : digit c d -> digit c d' -> d = d'.
Proof. inversion 1; inversion 1; subst; lia. Qed.
Lemma odigit_range c d : odigit c d -> 0 <= d < 8.
Proof. inversion 1; subst; lia. Qed.

Lemma hexchar c : (exists d, digit c d /\ parseHexChar c = d) \/ (parseHexChar c = -1 /\ forall d, ~ digit c d).
Proof.
  unfold parseHexChar. destruct ((48 <=? c) && (c <=? 57)) eqn:E1; [left; exists (c - 48); split; [constructor; lia|auto]|].
  destruct ((65 <=? c) && (c <=? 70)) eqn:E2; [left; exists (c - 55); split; [constructor; lia|lia]|].
  destruct ((97 <=? c) && (c <=? 102)) eqn:E3; [left; exists (c - 87); split; [constructor; lia|lia]|].
  right. split; auto. intros d H. inversion H; subst; lia.
Qed.

(** \xHH: exactly the value of the two digits, and -1 if there are not two. *)
Theorem hex_byte_value s v rest : parseHexByte s = (v, rest) ->
  (0 <= v -> exists a b, s = a :: b :: rest /\ numeral digit 16 [a; b] v) /\
  (forall a b t w, s = a :: b :: t -> numeral digit 16 [a; b] w -> v = w /\ rest = t).
Proof.
  assert (N2 : forall a b d1 d2, digit a d1 -> digit b d2 -> numeral digit 16 [a; b] (d1 * 16 + d2)).
  { intros a b d1 d2 H1 H2. apply (NumSnoc _ _ [a]); auto. replace d1 with (0 * 16 + d1) by lia. apply (NumSnoc _ _ []); auto. constructor. }
  assert (I2 : forall a b w, numeral digit 16 [a; b] w -> exists d1 d2, digit a d1 /\ digit b d2 /\ w = d1 * 16 + d2).
  { intros a b w H. inversion H as [|s' c v' d H' D E Ev]; subst. change [a; b] with ([a] ++ [b]) in E. apply app_inj_tail in E as [-> ->].
    inversion H' as [|s' c' v'' d' H'' D' E Ev]; subst. change [a] with ([] ++ [a]) in E. apply app_inj_tail in E as [-> ->].
    inversion H'' as [E1 E2|s' ? ? ? ? ? E Ev]; subst; [|destruct s'; discriminate]. exists d', d. repeat split; auto; lia. }
  unfold parseHexByte. intros E. destruct s as [|a [|b t]]; [injection E as <- <-; split; [lia|discriminate]..|].
  destruct (hexchar a) as [(d1 & D1 & E1)|[E1 N1]]; rewrite E1 in E.
  - pose proof (digit_range _ _ D1). destruct (Z.ltb_spec d1 0); [lia|].
    destruct (hexchar b) as [(d2 & D2 & E2)|[E2 N3]]; rewrite E2 in E.
    + pose proof (digit_range _ _ D2). rewrite lor_shift in E by (change (2 ^ 4) with 16; lia). change (2 ^ 4) with 16 in E.
      destruct (Z.ltb_spec (d1 * 16 + d2) 0); [lia|]. injection E as <- <-. split.
      * intros _. exists a, b. split; auto.
      * intros a' b' t' w Es Hw. injection Es as <- <- <-. apply I2 in Hw as (e1 & e2 & De1 & De2 & ->).
        rewrite (digit_fun _ _ _ D1 De1), (digit_fun _ _ _ D2 De2). auto.
    + rewrite Z.lor_m1_r in E. change (-1 <? 0) with true in E. cbv iota in E. injection E as <- <-. split; [lia|].
      intros a' b' t' w Es Hw. injection Es as <- <- <-. apply I2 in Hw as (e1 & e2 & De1 & De2 & ->). exfalso. apply (N3 e2); auto.
  - change (-1 <? 0) with true in E. cbv iota in E. injection E as <- <-. split; [lia|].
    intros a' b' t' w Es Hw. injection Es as <- <- <-. apply I2 in Hw as (e1 & e2 & De1 & De2 & ->). exfalso. apply (N1 e1); auto.
Qed.
Print Assumptions hex_byte_value.

Lemma numeral_len dig base s v : numeral dig base s v -> (s = [] -> v = 0) /\ True.
Proof. inversion 1; subst; auto. split; auto. intros E. destruct s0; discriminate. Qed.

Lemma hex_loop_spec n : forall val pre s v rest, numeral digit 16 pre val -> 0 <= val -> hex_loop n val s = (v, rest) ->
  (0 <= v -> exists ds, s = ds ++ 125 :: rest /\ (length ds < n)%nat /\ numeral digit 16 (pre ++ ds) v /\ v <= 1114111) /\
  (forall ds t w, s = ds ++ 125 :: t -> (length ds < n)%nat -> numeral digit 16 (pre ++ ds) w -> Forall (fun c => exists d, digit c d) ds ->
     w <= 1114111 -> v = w /\ rest = t).
Proof.
  assert (U : forall s v, numeral digit 16 s v -> forall w, numeral digit 16 s w -> v = w).
  { intros s v H. induction H as [|s c v d H IH D]; intros w Hw.
    - inversion Hw; auto. destruct s; discriminate.
    - inversion Hw as [E|s' c' v' d' H' D' E]; [destruct s; discriminate|]. apply app_inj_tail in E as [-> ->].
      rewrite (IH _ H'), (digit_fun _ _ _ D D'). auto. }
  induction n as [|n IH]; intros val pre s v rest P Hv E; cbn [hex_loop] in E.
  - injection E as <- <-. split; [lia|]. intros. lia.
  - destruct s as [|c t]; [injection E as <- <-; split; [lia|intros [|? ?]; discriminate]|].
    assert (step : forall d, digit c d -> hex_loop n (Z.lor (Z.shiftl val 4) d) t = (v, rest) ->
      (0 <= v -> exists ds, c :: t = ds ++ 125 :: rest /\ (length ds < S n)%nat /\ numeral digit 16 (pre ++ ds) v /\ v <= 1114111) /\
      (forall ds t' w, c :: t = ds ++ 125 :: t' -> (length ds < S n)%nat -> numeral digit 16 (pre ++ ds) w -> Forall (fun c => exists d, digit c d) ds ->
        w <= 1114111 -> v = w /\ rest = t')).
    { intros d D EL. pose proof (digit_range _ _ D). rewrite lor_shift in EL by (change (2 ^ 4) with 16; lia). change (2 ^ 4) with 16 in EL.
      assert (P' : numeral digit 16 (pre ++ [c]) (val * 16 + d)) by (constructor; auto).
      destruct (IH _ _ _ _ _ P' ltac:(lia) EL) as [A B]. split.
      - intros H0. destruct (A H0) as (ds & -> & L & Hn & Hm). exists (c :: ds). cbn [app length]. rewrite <- app_assoc in Hn. cbn [app] in Hn. repeat split; auto. lia.
      - intros ds t' w Es L Hw F Hm. destruct ds as [|c' ds]; cbn [app] in Es.
        + injection Es as -> ->. inversion D; lia.
        + injection Es as <- ->. inversion F; subst. apply (B ds t' w); auto; [cbn [length] in L; lia|]. rewrite <- app_assoc. auto. }
    destruct ((48 <=? c) && (c <=? 57)) eqn:E1; [apply (step (c - 48)); auto; constructor; lia|].
    destruct ((65 <=? c) && (c <=? 70)) eqn:E2; [apply (step (c - 65 + 10)); auto; replace (c - 65 + 10) with (c - 55) by lia; constructor; lia|].
    destruct ((97 <=? c) && (c <=? 102)) eqn:E3; [apply (step (c - 97 + 10)); auto; replace (c - 97 + 10) with (c - 87) by lia; constructor; lia|].
    clear step. destruct (Z.eqb_spec c 125) as [->|Hc].
    + split.
      * intros H0. exists []. destruct (Z.ltb_spec 1114111 val); injection E as <- <-; [lia|]. rewrite app_nil_r. cbn [app length]. repeat split; auto. lia.
      * intros ds t' w Es L Hw F Hm. destruct ds as [|c' ds]; cbn [app] in Es.
        { injection Es as ->. rewrite app_nil_r in Hw. pose proof (U _ _ P _ Hw). subst w. destruct (Z.ltb_spec 1114111 val); injection E as <- <-; [lia|auto]. }
        { injection Es as <- ->. inversion F as [|? ? [d D] _]; subst. inversion D; lia. }
    + injection E as <- <-. split; [lia|]. intros ds t' w Es L Hw F Hm. destruct ds as [|c' ds]; cbn [app] in Es.
      * injection Es as ? ?; congruence.
      * injection Es as <- ->. inversion F as [|? ? [d D] _]; subst. inversion D; subst; lia.
Qed.

Lemma numeral_digits dig base s v : numeral dig base s v -> Forall (fun c => exists d, dig c d) s.
Proof. induction 1; [constructor|]. apply Forall_app. split; auto. constructor; eauto. Qed.

(** \x{h...h} and \N{U+h...h} after the opening brace: one to six digits and a closing brace, giving the
    value of the digits; everything else, and values above 10FFFF, are an error. *)
Theorem hex_code_point_value s v rest : parseHexCodePoint s = (v, rest) ->
  (0 <= v -> exists ds, s = ds ++ 125 :: rest /\ (1 <= length ds <= 6)%nat /\ numeral digit 16 ds v /\ v <= 1114111) /\
  (forall ds t w, s = ds ++ 125 :: t -> (1 <= length ds <= 6)%nat -> numeral digit 16 ds w -> w <= 1114111 -> v = w /\ rest = t).
Proof.
  unfold parseHexCodePoint. destruct s as [|c s]; [intros E; injection E as <- <-; split; [lia|intros [|? ?]; discriminate]|].
  destruct (Z.eqb_spec c 125) as [->|Hc].
  - intros E. injection E as <- <-. split; [lia|]. intros ds t w Es L Hw. destruct ds as [|c ds]; [simpl in L; lia|]. injection Es as <- ->.
    apply numeral_digits in Hw. inversion Hw as [|? ? [d D] _]; subst. inversion D; lia.
  - set (n := Nat.min 7 (length (c :: s))). intros E. destruct (hex_loop_spec n 0 [] (c :: s) v rest (NumNil _ _) ltac:(lia) E) as [A B]. split.
    + intros H0. destruct (A H0) as (ds & Es & L & Hn & Hm). exists ds. split; auto. cbn [app] in Hn. split; [|auto].
      destruct ds as [|x ds]; [cbn [app] in Es; injection Es as ? ?; congruence|]. cbn [length] in *. unfold n in L. lia.
    + intros ds t w Es L Hw Hm. apply (B ds t w); auto; [|apply numeral_digits in Hw; auto]. unfold n. rewrite Es, app_length. cbn [length]. lia.
Qed.
Print Assumptions hex_code_point_value.

Lemma oct_loop_spec n : forall oct pre s v rest, numeral odigit 8 pre oct -> 0 <= oct -> oct_loop n oct s = (v, rest) ->
  exists ds, s = ds ++ rest /\ (length ds <= n)%nat /\ numeral odigit 8 (pre ++ ds) v /\
    (length ds = n \/ match rest with [] => True | c :: _ => forall d, ~ odigit c d end).
Proof.
  induction n as [|n IH]; intros oct pre s v rest P Ho E; cbn [oct_loop] in E.
  - injection E as <- <-. exists []. rewrite app_nil_r. repeat split; auto.
  - destruct s as [|c t]; [injection E as <- <-; exists []; rewrite (app_nil_r pre); split; [auto|]; split; [simpl; lia|]; split; [auto|]; right; exact I|].
    unfold parseOctChar in E. destruct ((48 <=? c) && (c <=? 55)) eqn:E1.
    + destruct (Z.eqb_spec (c - 48) (-1)); [lia|]. rewrite lor_shift in E by (change (2 ^ 3) with 8; lia). change (2 ^ 3) with 8 in E.
      assert (P' : numeral odigit 8 (pre ++ [c]) (oct * 8 + (c - 48))) by (constructor; auto; constructor; lia).
      destruct (IH _ _ _ _ _ P' ltac:(lia) E) as (ds & -> & L & Hn & D). exists (c :: ds). rewrite <- app_assoc in Hn. cbn [app length] in *.
      repeat split; auto; [lia|]. destruct D; auto.
    + change (-1 =? -1) with true in E. cbv iota in E. injection E as <- <-. exists []. rewrite app_nil_r. repeat split; auto; [simpl; lia|].
      right. intros d D. inversion D; subst. lia.
Qed.

(** \ooo: the value of the longest run of at most three octal digits, or -1 if it exceeds 377. *)
Theorem oct_byte_value s v rest : parseOctByte s = (v, rest) ->
  exists ds w, s = ds ++ rest /\ (length ds <= 3)%nat /\ numeral odigit 8 ds w /\ v = (if 255 <? w then -1 else w) /\
    (length ds = 3%nat \/ match rest with [] => True | c :: _ => forall d, ~ odigit c d end).
Proof.
  unfold parseOctByte. destruct (oct_loop (Nat.min 3 (length s)) 0 s) as [w r] eqn:E. intros H. injection H as <- <-.
  destruct (oct_loop_spec _ 0 [] s w r (NumNil _ _) ltac:(lia) E) as (ds & Es & L & Hn & D). exists ds, w. repeat split; auto; [lia|].
  destruct D as [D|D]; auto. destruct (Nat.le_gt_cases 3 (length s)); [left; lia|]. right. destruct r; auto.
  exfalso. apply (f_equal (@length Z)) in Es. rewrite app_length in Es. cbn [length] in Es. lia.
Qed.
Print Assumptions oct_byte_value.

Example escapes_case :
  parseHexByte [101; 57; 33] = (233, [33]) /\ parseHexByte [101; 103; 33] = (-1, [33]) /\
  parseHexCodePoint [49; 70; 52; 97; 57; 125; 65] = (128169, [65]) /\ parseHexCodePoint [49; 49; 48; 48; 48; 48; 125] = (-1, []) /\
  parseOctByte [49; 48; 49; 53] = (65, [53]) /\ parseOctByte [52; 48; 48] = (-1, []).
Proof. vm_compute. auto 10. Qed.
