(** Reading the text of a pattern: bytes to code points to tokens. *)
From Verif Require Import Base UtfModel UtfProofs Thm_Utf EscModel Thm_Esc PatModel ParseModel ParseSets ParseGrammar ParseRun.
Open Scope Z_scope.

(** * Code points *)

Lemma unicode_cp l : utf8_to_unicode l = (fst (utf8_to_unicode l), match utf8_to_cp l with Some (_, cp) => Z.of_N cp | None => -1 end) /\
  (forall n cp, utf8_to_cp l = Some (n, cp) -> fst (utf8_to_unicode l) = n).
Proof.
  unfold utf8_to_unicode, utf8_to_cp. destruct l as [|x r]; [split; [auto|discriminate]|].
  destruct (N.land x 255 <? 128)%N; [split; [auto|intros n cp [= <- <-]; auto]|].
  destruct (N.land x 255 <? 224)%N.
  { destruct (N.land x 255 <? 194)%N; [split; [auto|discriminate]|]. destruct (continuation r _) as [[r1 c1]|]; split; auto; try discriminate. intros n cp [= <- <-]; auto. }
  destruct (N.land x 255 <? 240)%N.
  { destruct (continuation r _) as [[r1 c1]|]; [|split; [auto|discriminate]]. destruct (continuation r1 _) as [[r2 c2]|]; [|split; [auto|discriminate]].
    destruct (_ || _); split; auto; try discriminate. intros n cp [= <- <-]; auto. }
  destruct (N.land x 255 <? 245)%N; [|split; [auto|discriminate]].
  destruct (continuation r _) as [[r1 c1]|]; [|split; [auto|discriminate]]. destruct (continuation r1 _) as [[r2 c2]|]; [|split; [auto|discriminate]].
  destruct (continuation r2 _) as [[r3 c3]|]; [|split; [auto|discriminate]].
  destruct (_ || _); split; auto; try discriminate. intros n cp [= <- <-]; auto.
Qed.

Lemma unicode_used x r : (1 <= fst (utf8_to_unicode (x :: r)) <= 4)%nat.
Proof.
  unfold utf8_to_unicode.
  repeat match goal with |- context [if ?b then _ else _] => destruct b end; cbn [fst]; try lia;
  repeat match goal with |- context [match continuation ?a ?b with _ => _ end] => destruct (continuation a b) as [[? ?]|] end; cbn [fst]; lia.
Qed.

Lemma continuation_some l cp r c : continuation l cp = Some (r, c) -> exists x, l = x :: r /\ (128 <= x mod 256)%N.
Proof.
  rewrite continuation_eq. destruct l as [|x l]; [discriminate|]. destruct (N.leb_spec 128 (x mod 256)); [|discriminate]. cbn [andb]. destruct (_ <? _)%N; [|discriminate]. intros [= <- _]. eauto.
Qed.

(** If a byte that is not there is used, the last byte is part of a sequence. *)
Lemma unicode_cut l : (length l < fst (utf8_to_unicode l))%nat -> exists a x, l = a ++ [x] /\ (128 <= x mod 256)%N.
Proof.
  unfold utf8_to_unicode. destruct l as [|x r]; [simpl; lia|]. rewrite land_255.
  destruct (N.ltb_spec (x mod 256) 128) as [?|H]; [simpl; lia|].
  assert (X1 : r = [] -> exists a y, x :: r = a ++ [y] /\ (128 <= y mod 256)%N) by (intros ->; exists [], x; auto).
  assert (LEN : forall l : list N, (length l < 1)%nat -> l = []) by (intros [|? ?]; simpl; auto; lia).
  assert (C1 : forall c r1 c1, continuation r c = Some (r1, c1) -> exists y, r = y :: r1 /\ (r1 = [] -> exists a z, x :: r = a ++ [z] /\ (128 <= z mod 256)%N)).
  { intros c r1 c1 E. destruct (continuation_some _ _ _ _ E) as (y & -> & Hy). exists y. split; auto. intros ->. exists [x], y. auto. }
  destruct (N.ltb_spec (x mod 256) 224).
  { destruct (_ <? _)%N; [simpl; lia|]. destruct (continuation r _) as [[r1 c1]|] eqn:E; cbn [fst length].
    - destruct (C1 _ _ _ E) as (y & -> & _). simpl. lia.
    - intros L. apply X1, LEN. lia. }
  assert (C2 : forall c r1 c1 c' r2 c2, continuation r c = Some (r1, c1) -> continuation r1 c' = Some (r2, c2) -> exists y z, r = y :: z :: r2 /\ (r2 = [] -> exists a z, x :: r = a ++ [z] /\ (128 <= z mod 256)%N)).
  { intros c r1 c1 c' r2 c2 E E'. destruct (C1 _ _ _ E) as (y & -> & _). destruct (continuation_some _ _ _ _ E') as (z & -> & Hz). exists y, z. split; auto. intros ->. exists [x; y], z. auto. }
  destruct (N.ltb_spec (x mod 256) 240).
  { destruct (continuation r _) as [[r1 c1]|] eqn:E; [|cbn [fst length]; intros L; apply X1, LEN; lia].
    destruct (continuation r1 _) as [[r2 c2]|] eqn:E2; cbn [fst length].
    - destruct (C2 _ _ _ _ _ _ E E2) as (y & z & -> & _). simpl. lia.
    - destruct (C1 _ _ _ E) as (y & -> & K). intros L. apply K, LEN. simpl in L. lia. }
  destruct (N.ltb_spec (x mod 256) 245); [|simpl; lia].
  destruct (continuation r _) as [[r1 c1]|] eqn:E; [|cbn [fst length]; intros L; apply X1, LEN; lia].
  destruct (continuation r1 _) as [[r2 c2]|] eqn:E2; cbn [fst length].
  - destruct (C2 _ _ _ _ _ _ E E2) as (y & z & -> & K). destruct (continuation r2 _) as [[r3 c3]|] eqn:E3; cbn [fst length].
    + destruct (continuation_some _ _ _ _ E3) as (u & -> & _). simpl. lia.
    + intros L. apply K, LEN. lia.
  - destruct (C1 _ _ _ E) as (y & -> & K). intros L. apply K, LEN. simpl in L. lia.
Qed.

(** What the bytes of one code point look like *)
Definition reads_cp (c : Z) (w : list N) : Prop := w <> [] /\ (c = -1 \/ rfc3629 c w).

Lemma rfc_small c w : rfc3629 c w -> 0 <= c < 128 -> w = [Z.to_N c].
Proof. destruct 1; intros L; try lia. f_equal. lia. Qed.

Lemma unicode_reads l : bytes l -> l <> [] -> (fst (utf8_to_unicode l) <= length l)%nat -> reads_cp (snd (utf8_to_unicode l)) (firstn (fst (utf8_to_unicode l)) l).
Proof.
  intros B NE L. destruct (unicode_cp l) as (E & N). destruct l as [|x r]; [congruence|]. pose proof (unicode_used x r) as U. split.
  - destruct (fst (utf8_to_unicode (x :: r))); [lia|discriminate].
  - assert (SE : snd (utf8_to_unicode (x :: r)) = match utf8_to_cp (x :: r) with Some (_, cp) => Z.of_N cp | None => -1 end) by (rewrite E; auto). rewrite SE.
    destruct (utf8_to_cp (x :: r)) as [[n cp]|] eqn:Ec; auto. right. specialize (N n cp eq_refl). rewrite N.
    apply utf8_decodes_exactly in Ec as (w & rest & El & -> & H); auto. rewrite El. rewrite firstn_app, Nat.sub_diag, firstn_all, firstn_O, app_nil_r. exact H.
Qed.

Lemma bytes_skip n l : bytes l -> bytes (skipn n l).
Proof. unfold bytes. rewrite !Forall_forall. intros H x Hx. apply H. rewrite <- (firstn_skipn n l). apply in_app_iff. auto. Qed.

Lemma transform_spec : forall fuel l, bytes l -> (length l < fuel)%nat ->
  match transform fuel l with
  | Ok cps => exists ws, l = List.concat ws /\ Forall2 reads_cp cps ws
  | UB => exists a x, l = a ++ [x] /\ (128 <= x)%N
  | _ => False
  end.
Proof.
  induction fuel as [|f IH]; intros l B L; [lia|]. cbn [transform]. destruct l as [|x r]; [exists []; auto|].
  pose proof (unicode_cut (x :: r)) as CUT. pose proof (unicode_reads (x :: r) B) as RD. pose proof (unicode_used x r) as U.
  destruct (utf8_to_unicode (x :: r)) as [used cp]. cbn [fst snd] in *. destruct (Nat.ltb_spec (length (x :: r)) used) as [H|H].
  - destruct (CUT H) as (a & y & E & Hy). exists a, y. split; auto. unfold bytes in B. rewrite E, Forall_app, Forall_cons_iff in B. rewrite N.mod_small in Hy; tauto.
  - assert (IHr := IH (skipn used (x :: r)) (bytes_skip _ _ B)). rewrite skipn_length in IHr. specialize (IHr ltac:(cbn [length] in *; lia)).
    destruct (transform f (skipn used (x :: r))) as [cps| | |]; cbn [bind]; auto.
    + destruct IHr as (ws & E & F). exists (firstn used (x :: r) :: ws). split; [simpl List.concat; rewrite <- E; symmetry; apply firstn_skipn|]. constructor; auto. apply RD; auto; discriminate.
    + destruct IHr as (a & y & E & Hy). exists (firstn used (x :: r) ++ a), y. split; auto. rewrite <- app_assoc, <- E. symmetry. apply firstn_skipn.
Qed.

Lemma transform_valid : forall cps ws fuel, Forall2 rfc3629 cps ws -> bytes (List.concat ws) -> (length (List.concat ws) < fuel)%nat -> transform fuel (List.concat ws) = Ok cps.
Proof.
  induction cps as [|c cps IH]; intros ws fuel F B L; inversion F as [|? w ? ws' H F']; subst; (destruct fuel as [|f]; [lia|]); [reflexivity|]. cbn [transform List.concat] in *.
  assert (NW : exists x r, w = x :: r) by (destruct H; eauto). destruct NW as (x & r & EW).
  assert (D : utf8_to_cp (w ++ List.concat ws') = Some (length w, Z.to_N c)). { apply utf8_decodes_exactly; auto. exists w, (List.concat ws'). split; auto. split; auto. rewrite Z2N.id; auto. destruct H; lia. }
  destruct (unicode_cp (w ++ List.concat ws')) as (E & N). rewrite D in E. specialize (N _ _ D). rewrite N in E.
  rewrite E. rewrite EW. cbn [app]. rewrite <- EW. rewrite app_comm_cons, <- EW. rewrite app_length. destruct (Nat.ltb_spec (length w + length (List.concat ws')) (length w)); [lia|].
  rewrite skipn_app, Nat.sub_diag, skipn_all. cbn [app skipn]. apply Forall_app in B as [_ B]. rewrite app_length in L. rewrite (IH ws'); auto.
  - cbn [bind]. rewrite Z2N.id; auto. destruct H; lia.
  - rewrite EW in L. simpl in L. lia.
Qed.

(** * Tokens *)

Lemma hex_loop_tail n : forall v s x r, hex_loop n v s = (x, r) -> exists a, s = a ++ r.
Proof.
  induction n as [|n IH]; intros v s x r; simpl; [intros [= _ <-]; exists []; auto|]. destruct s as [|c t]; [intros [= _ <-]; exists []; auto|].
  assert (K : forall v, hex_loop n v t = (x, r) -> exists a, c :: t = a ++ r). { intros w E. destruct (IH _ _ _ _ E) as (a & ->). exists (c :: a). auto. }
  destruct (_ && _); [apply K|]. destruct (_ && _); [apply K|]. destruct (_ && _); [apply K|]. destruct (c =? 125); intros [= _ <-]; exists [c]; auto.
Qed.
Lemma hexcp_tail s x r : parseHexCodePoint s = (x, r) -> exists a, s = a ++ r.
Proof. unfold parseHexCodePoint. destruct s as [|c t]; [intros [= _ <-]; exists []; auto|]. destruct (c =? 125); [intros [= _ <-]; exists []; auto|]. apply hex_loop_tail. Qed.
Lemma hexbyte_tail s x r : parseHexByte s = (x, r) -> exists a, s = a ++ r.
Proof.
  unfold parseHexByte. destruct s as [|a [|b t]]; [intros [= _ <-]; exists []; auto|intros [= _ <-]; exists [a]; auto|].
  destruct (_ <? 0); [intros [= _ <-]; exists [a]; auto|intros [= _ <-]; exists [a; b]; auto].
Qed.
Lemma oct_loop_tail n : forall v s x r, oct_loop n v s = (x, r) -> exists a, s = a ++ r.
Proof.
  induction n as [|n IH]; intros v s x r; simpl; [intros [= _ <-]; exists []; auto|]. destruct s as [|c t]; [intros [= _ <-]; exists []; auto|].
  destruct (_ =? _); [intros [= _ <-]; exists []; auto|]. intros E. destruct (IH _ _ _ _ E) as (a & ->). exists (c :: a). auto.
Qed.
Lemma octbyte_tail s x r : parseOctByte s = (x, r) -> exists a, s = a ++ r.
Proof. unfold parseOctByte. destruct (oct_loop _ _ _) as [v t] eqn:E. intros [= _ <-]. eapply oct_loop_tail; eauto. Qed.
Lemma to_brace_tail : forall s n r, to_brace s = Some (n, r) -> exists a, s = a ++ r.
Proof.
  induction s as [|c t IH]; simpl; intros n r; [discriminate|]. destruct (c =? 125); [intros [= _ <-]; exists [c]; auto|].
  destruct (to_brace t) as [[m r']|]; [|discriminate]. intros [= _ <-]. destruct (IH _ _ eq_refl) as (a & ->). exists (c :: a). auto.
Qed.
Lemma icu_tail s n r : prepareStringForICU s = Some (n, r) -> exists a, s = a ++ r.
Proof.
  unfold prepareStringForICU. destruct (to_brace s) as [[m r']|] eqn:E; [|discriminate]. destruct (to_ascii m); [|discriminate]. intros [= _ <-]. eapply to_brace_tail; eauto.
Qed.

(** Numbers read by an escape stay in range. *)
Lemma numeral_range (dig : Z -> Z -> Prop) base s v : (forall c d, dig c d -> 0 <= d < base) -> 0 < base -> numeral dig base s v -> 0 <= v < base ^ Z.of_nat (length s).
Proof.
  intros D B. induction 1 as [|s c v d _ IH Hd]; [simpl; lia|]. rewrite app_length. cbn [length]. rewrite Nat2Z.inj_add, Z.pow_add_r by lia. change (Z.of_nat 1) with 1. rewrite Z.pow_1_r.
  apply D in Hd. nia.
Qed.
Lemma hexbyte_range s v r : parseHexByte s = (v, r) -> v < 256.
Proof.
  intros E. apply hex_byte_value in E as (E & _). destruct (Z_lt_le_dec v 0); [lia|]. destruct (E ltac:(lia)) as (a & b & _ & N).
  apply numeral_range in N; [|apply digit_range|lia]. change (16 ^ Z.of_nat (length [a; b])) with 256 in N. lia.
Qed.
Lemma hexcp_range s v r : parseHexCodePoint s = (v, r) -> v < 1114112.
Proof. intros E. apply hex_code_point_value in E as (E & _). destruct (Z_lt_le_dec v 0); [lia|]. destruct (E ltac:(lia)) as (ds & _ & _ & _ & L). lia. Qed.
Lemma octbyte_range s v r : parseOctByte s = (v, r) -> v < 256.
Proof. intros E. apply oct_byte_value in E as (ds & w & _ & _ & _ & -> & _). destruct (Z.ltb_spec 255 w); lia. Qed.

(** What nodesUpperBound counts, and two more for each \b and \B *)
Definition is_wb (prev c : Z) : bool := ((c =? 66) || (c =? 98)) && (prev =? 92).
Fixpoint measure (prev : Z) (s : list Z) : nat :=
  match s with
  | [] => 0
  | c :: t => Nat.add (if (c =? 94) || (c =? 36) then 3%nat else if is_wb prev c then 10%nat else 2%nat) (measure c t)
  end.

Lemma measure_prev p s : (measure 0 s <= measure p s)%nat.
Proof. destruct s as [|c t]; simpl; auto. destruct (_ || _); [lia|]. unfold is_wb. change (0 =? 92) with false. rewrite andb_false_r. destruct (_ && _); lia. Qed.
Lemma measure_cons p c s : (2 + measure 0 s <= measure p (c :: s))%nat.
Proof. simpl. pose proof (measure_prev c s). destruct (_ || _); [lia|]. destruct (is_wb p c); lia. Qed.
Lemma measure_app a : forall p s, (2 * length a + measure 0 s <= measure p (a ++ s))%nat.
Proof.
  induction a as [|c a IH]; intros p s; [simpl; apply measure_prev|]. cbn [app length]. pose proof (measure_cons p c (a ++ s)). pose proof (IH 0 s). lia.
Qed.

Section Lexing.
Variable I : icu.
Hypothesis IO : icu_ok I.

(** The characters [ch] of a token *)
Record reads_tok (k : tok) (ch : list Z) : Prop := {
  rt_ne : ch <> [];
  rt_punct : forall c, k = TP c -> ch = [c];
  rt_digit : forall c, k = TDigit c -> ch = [c];
  rt_weight : forall p s, (weight k + measure 0 s <= measure p (ch ++ s))%nat;
  rt_ok : Forall (fun c => c < 1114112) ch -> tok_ok k
}.

Lemma reads_two a b ch k : (weight k <= 4)%nat -> (forall c, k <> TP c) -> (forall c, k <> TDigit c) -> (Forall (fun c => c < 1114112) (a :: b :: ch) -> tok_ok k) -> reads_tok k (a :: b :: ch).
Proof.
  intros W P D T. split; auto.
  - discriminate.
  - intros c E. destruct (P c E).
  - intros c E. destruct (D c E).
  - intros p s. pose proof (measure_app (a :: b :: ch) p s) as M. simpl length in M. lia.
Qed.

Lemma reads_one c k : (weight k <= 2)%nat -> (forall c', k = TP c' -> c' = c) -> (forall c', k = TDigit c' -> c' = c) -> (c < 1114112 -> tok_ok k) -> reads_tok k [c].
Proof.
  intros W P D T. split.
  - discriminate.
  - intros x E. rewrite (P x E). auto.
  - intros x E. rewrite (D x E). auto.
  - intros p s. pose proof (measure_app [c] p s) as M. simpl length in M. lia.
  - intros F. inversion F; subst. auto.
Qed.

Definition lexed (k : tok) (s r : list Z) : Prop := k = TBad \/ exists ch, s = ch ++ r /\ reads_tok k ch.

Lemma singleton_lexed mk c d s v r : (forall x, (weight (mk x) <= 4)%nat /\ (forall c, mk x <> TP c) /\ (forall c, mk x <> TDigit c)) ->
  (0 <= v -> tok_ok (mk v)) -> (exists a, s = a ++ r) -> lexed (fst (singleton mk (v, r))) (c :: d :: s) (snd (singleton mk (v, r))).
Proof.
  intros M T (a & ->). unfold singleton. destruct (Z.ltb_spec v 0); [left; auto|]. right. cbn [fst snd]. exists (c :: d :: a). split; auto.
  destruct (M v) as (W & P & D). apply reads_two; auto.
Qed.

Lemma two_lexed a b k r : (weight k <= 4)%nat -> (forall c, k <> TP c) -> (forall c, k <> TDigit c) -> tok_ok k -> lexed k (a :: b :: r) r.
Proof. intros W P D T. right. exists [a; b]. split; auto. apply reads_two; auto. Qed.
Lemma one_lexed c k r : (weight k <= 2)%nat -> (forall c', k = TP c' -> c' = c) -> (forall c', k = TDigit c' -> c' = c) -> (c < 1114112 -> tok_ok k) -> lexed k (c :: r) r.
Proof. intros W P D T. right. exists [c]. split; auto. apply reads_one; auto. Qed.
Ltac two := apply two_lexed; [simpl; lia|discriminate|discriminate|try exact Logic.I; try (simpl; lia)].

Lemma escape_lexed s : lexed (fst (consumeEscape I s)) (92 :: s) (snd (consumeEscape I s)).
Proof.
  assert (MC : forall x, (weight (TChar x) <= 4)%nat /\ (forall c, TChar x <> TP c) /\ (forall c, TChar x <> TDigit c)) by (intros; repeat split; try discriminate; simpl; lia).
  assert (MB : forall x, (weight (TByte x) <= 4)%nat /\ (forall c, TByte x <> TP c) /\ (forall c, TByte x <> TDigit c)) by (intros; repeat split; try discriminate; simpl; lia).
  assert (WB : forall c t k, c = 66 \/ c = 98 -> weight k = 12%nat -> (forall c, k <> TP c) -> (forall c, k <> TDigit c) -> tok_ok k -> lexed k (92 :: c :: t) t).
  { intros c t k Hc W P D T. right. exists [92; c]. split; auto. split; auto.
    - discriminate.
    - intros x E. destruct (P x E).
    - intros x E. destruct (D x E).
    - intros p u. rewrite W. cbn [app measure]. change (92 =? 94) with false. change (92 =? 36) with false. cbn [orb]. unfold is_wb at 1. change (92 =? 66) with false. change (92 =? 98) with false. cbn [orb andb].
      pose proof (measure_prev c u). destruct Hc as [-> | ->]; simpl; lia. }
  destruct s as [|c t]; [left; auto|]. cbn [consumeEscape].
  assert (IF : forall (b : bool) x y, (b = true -> lexed (fst x) (92 :: c :: t) (snd x)) -> (b = false -> lexed (fst y) (92 :: c :: t) (snd y)) -> lexed (fst (if b then x else y)) (92 :: c :: t) (snd (if b then x else y))).
  { intros []; auto. }
  apply IF; intros EM.
  { two. unfold is_escaped_meta in EM. apply existsb_exists in EM as (x & Hx & Ex). apply Z.eqb_eq in Ex. subst x. simpl in Hx |- *. lia. }
  do 16 (apply IF; intros _; [two|]).
  apply IF; intros _.
  { destruct t as [|d u]; [left; auto|]. destruct (d =? 123).
    - destruct (parseHexCodePoint u) as [v r] eqn:E. pose proof (hexcp_tail _ _ _ E) as (a & ->). apply hexcp_range in E. apply singleton_lexed; auto; [simpl; lia|]. exists (d :: a). auto.
    - destruct (parseHexByte (d :: u)) as [v r] eqn:E. pose proof (hexbyte_tail _ _ _ E). apply hexbyte_range in E. apply singleton_lexed; auto. simpl; lia. }
  apply IF; intros _.
  { destruct (parseHexByte t) as [v r] eqn:E. pose proof (hexbyte_tail _ _ _ E). apply hexbyte_range in E. apply singleton_lexed; auto. simpl; lia. }
  apply IF; intros EO.
  { destruct (parseOctByte (c :: t)) as [v r] eqn:E. pose proof E as E0. apply oct_byte_value in E0 as (ds & w & E1 & _ & _ & _ & E2). apply octbyte_range in E.
    unfold singleton. destruct (Z.ltb_spec v 0); [left; auto|]. right. cbn [fst snd]. exists (92 :: ds). split; [rewrite E1; auto|]. destruct ds as [|d0 ds].
    - exfalso. simpl in E1. subst r. destruct E2 as [E2|E2]; [discriminate|]. apply andb_true_iff in EO as [O1 O2]. apply (E2 (c - 48)). constructor. lia.
    - apply reads_two; try discriminate; simpl; lia. }
  apply IF; intros _.
  { assert (NM : forall t', (exists a, t = a ++ t') -> forall x, x = (match prepareStringForICU t' with None => (-1, t') | Some (name, r') => (ic_name I name, r') end) -> (exists a, t = a ++ snd x) /\ fst x < 1114112).
    { intros t' (a & ->) x ->. destruct (prepareStringForICU t') as [[n r']|] eqn:E; cbn [fst snd]; [|split; [eauto|lia]]. apply icu_tail in E as (b & ->). split; [exists (a ++ b); rewrite app_assoc; auto|]. apply (io_name I IO). }
    assert (X : (exists a, t = a ++ snd (parseNamedCodePoint I t)) /\ fst (parseNamedCodePoint I t) < 1114112).
    { unfold parseNamedCodePoint. destruct t as [|d u]; [split; [exists []; auto|simpl; lia]|]. destruct (negb _); [split; [exists [d]; auto|simpl; lia]|].
      destruct u as [|x [|y u]]; try (apply (NM _ (ex_intro _ [d] eq_refl) _ eq_refl)). destruct ((x =? 85) && (y =? 43)).
      - destruct (parseHexCodePoint u) as [v r] eqn:E. pose proof (hexcp_tail _ _ _ E) as (a & ->). apply hexcp_range in E. split; [exists (d :: x :: y :: a); auto|exact E].
      - apply (NM _ (ex_intro _ [d] eq_refl) _ eq_refl). }
    destruct X as (X1 & X2). rewrite (surjective_pairing (parseNamedCodePoint I t)). apply singleton_lexed; auto. simpl; lia. }
  apply IF; intros _.
  { unfold parseProperty. destruct t as [|d u]; [left; auto|]. destruct (negb _); [left; auto|]. destruct (prepareStringForICU (92 :: c :: d :: u)) as [[n r]|] eqn:E; [|left; auto]. cbn [option_map fst snd].
    unfold prepareStringForICU in E. destruct (to_brace (92 :: c :: d :: u)) as [[m r']|] eqn:EB; [|discriminate]. destruct (to_ascii m); [|discriminate]. injection E as <- <-.
    destruct (to_brace_tail _ _ _ EB) as (a & EA). assert (LA : (2 <= length a)%nat \/ c = 125).
    { cbn [to_brace] in EB. change (92 =? 125) with false in EB. destruct (Z.eqb_spec c 125); auto. left. destruct (d =? 125).
      - simpl in EB. injection EB as <- <-. destruct a as [|? [|? ?]]; try discriminate; simpl; try lia; apply (f_equal (@length Z)) in EA; simpl in EA; lia.
      - destruct (to_brace u) as [[m2 r2]|] eqn:E2; [|discriminate]. simpl in EB. injection EB as <- <-. apply to_brace_tail in E2 as (b & ->). apply (f_equal (@length Z)) in EA. rewrite app_length in EA. simpl in EA. rewrite app_length in EA. lia. }
    right. exists a. split; auto. destruct a as [|a1 [|a2 a]].
    - exfalso. simpl in LA. destruct LA as [LA|LA]; [lia|]. subst c. discriminate EM.
    - exfalso. simpl in LA. destruct LA as [LA|LA]; [lia|]. subst c. discriminate EM.
    - apply reads_two; try discriminate; simpl; auto. }
  apply IF; intros _; [two|].
  apply IF; intros E; [apply WB; auto; try discriminate; [left; lia|exact Logic.I]|].
  apply IF; intros _; [two|].
  apply IF; intros _; [two|].
  apply IF; intros E'; [apply WB; auto; try discriminate; [right; lia|exact Logic.I]|].
  left. auto.
Qed.

Lemma yylex_lexed literal c t : lexed (fst (yylex I literal c t)) (c :: t) (snd (yylex I literal c t)).
Proof.
  assert (CH : 1 <= c -> lexed (TChar c) (c :: t) t) by (intros H; apply one_lexed; try discriminate; simpl; lia).
  assert (TW : forall d r k, t = d :: r -> (weight k <= 4)%nat -> (forall c, k <> TP c) -> (forall c, k <> TDigit c) -> tok_ok k -> lexed k (c :: t) r) by (intros d r k ->; apply two_lexed).
  unfold yylex. destruct (Z.ltb_spec c 1); [left; auto|]. specialize (CH ltac:(lia)).
  destruct literal; [exact CH|]. destruct (is_punct c) eqn:EP.
  { cbn [fst snd]. right. exists [c]. split; auto. split.
    - discriminate.
    - intros x [= <-]. auto.
    - discriminate.
    - intros p s. cbn [weight app measure]. pose proof (measure_prev c s). destruct (_ || _); [lia|]. destruct (is_wb p c); lia.
    - intros F. inversion F; subst. simpl. lia. }
  destruct (c =? 38).
  { destruct t as [|d r]; [exact CH|]. destruct (d =? 38); [|exact CH]. eapply TW; eauto; try discriminate; simpl; auto. }
  destruct (c =? 126).
  { destruct t as [|d r]; [exact CH|]. destruct (d =? 126); [|exact CH]. eapply TW; eauto; try discriminate; simpl; auto. }
  destruct (Z.eqb_spec c 45) as [->|].
  { destruct t as [|d r]; [exact CH|]. destruct (d =? 93); [exact CH|]. destruct (d =? 45); [eapply TW; eauto; try discriminate; simpl; auto|].
    apply one_lexed; try discriminate; simpl; try lia. intros x [= <-]. auto. }
  destruct (Z.eqb_spec c 92) as [->|]; [apply escape_lexed|].
  destruct (_ && _) eqn:ED; [|exact CH]. apply one_lexed; try discriminate; simpl; try lia. intros x [= <-]. auto.
Qed.

(** All tokens but an invalid last one have their characters, and the rest is left. *)
Lemma lex_spec literal : forall f s, exists ts chs rest, s = List.concat chs ++ rest /\ Forall2 reads_tok ts chs /\
  (lex I f literal s = ts \/ lex I f literal s = ts ++ [TBad] /\ rest <> []).
Proof.
  induction f as [|f IH]; intros s; [exists [], [], s; simpl; auto|]. cbn [lex]. destruct s as [|c t]; [exists [], [], []; simpl; auto|].
  pose proof (yylex_lexed literal c t) as L. destruct (yylex I literal c t) as [k r]. cbn [fst snd] in L.
  assert (BAD : k = TBad -> exists ts chs rest, c :: t = List.concat chs ++ rest /\ Forall2 reads_tok ts chs /\ ([TBad] = ts \/ [TBad] = ts ++ [TBad] /\ rest <> [])).
  { intros _. exists [], [], (c :: t). split; auto. split; auto. right. split; auto. discriminate. }
  assert (GOOD : k <> TBad -> exists ts chs rest, c :: t = List.concat chs ++ rest /\ Forall2 reads_tok ts chs /\ (k :: lex I f literal r = ts \/ k :: lex I f literal r = ts ++ [TBad] /\ rest <> [])).
  { intros NB. destruct L as [L|(ch & E & R)]; [congruence|]. destruct (IH r) as (ts & chs & rest & E2 & F & H). exists (k :: ts), (ch :: chs), rest. split; [rewrite E, E2; simpl; rewrite app_assoc; auto|]. split; [constructor; auto|].
    destruct H as [-> | (-> & H)]; auto. }
  destruct k; try (apply GOOD; discriminate). apply BAD. auto.
Qed.

Lemma concat_length {A} (P : tok -> list A -> Prop) ts chs : (forall k ch, P k ch -> ch <> []) -> Forall2 P ts chs -> (length ts <= length (List.concat chs))%nat.
Proof. intros H. induction 1 as [|k ch ts chs R _ IH]; simpl; auto. rewrite app_length. apply H in R. destruct ch; [congruence|simpl; lia]. Qed.

Lemma reads_weights ts chs : Forall2 reads_tok ts chs -> forall p s, (weights ts + measure 0 s <= measure p (List.concat chs ++ s))%nat.
Proof.
  induction 1 as [|k ch ts chs R _ IH]; intros p s; [simpl; apply measure_prev|]. cbn [weights List.concat]. rewrite <- app_assoc.
  pose proof (rt_weight _ _ R p (List.concat chs ++ s)). specialize (IH 0 s). lia.
Qed.

Lemma lex_weights literal f s : (weights (lex I f literal s) <= measure 0 s)%nat.
Proof.
  destruct (lex_spec literal f s) as (ts & chs & rest & -> & F & H). pose proof (reads_weights _ _ F 0 rest) as W. destruct H as [-> | (-> & H)]; [lia|].
  rewrite weights_app. simpl. destruct rest as [|c r]; [congruence|]. pose proof (measure_cons 0 c r). lia.
Qed.

Lemma lex_ok literal f s : Forall (fun c => c < 1114112) s -> Forall tok_ok (lex I f literal s).
Proof.
  destruct (lex_spec literal f s) as (ts & chs & rest & -> & F & H). intros B. apply Forall_app in B as [B _].
  assert (K : Forall tok_ok ts). { clear H. induction F as [|k ch ts chs R _ IH]; constructor; simpl in B; apply Forall_app in B as [B1 B2]; auto. apply (rt_ok _ _ R B1). }
  destruct H as [-> | (-> & _)]; auto. apply Forall_app. split; auto. constructor; auto. exact Logic.I.
Qed.

(** A part of the tokens comes from a part of the text. *)
Lemma lex_parts literal f s x y z : lex I f literal s = x ++ y ++ z -> ~ In TBad y -> exists a ys b, s = a ++ List.concat ys ++ b /\ Forall2 reads_tok y ys /\ (x <> [] -> a <> []) /\ (length z <= length b)%nat.
Proof.
  intros E NB. destruct (lex_spec literal f s) as (ts & chs & rest & -> & F & H).
  assert (X : exists z', ts = x ++ y ++ z' /\ (length z <= length z' + length rest)%nat \/ (y = [] /\ z = [] /\ exists x', x = x' ++ [TBad] /\ ts = x')).
  { rewrite E in H. destruct H as [H|(H & R)]; [exists z; left; split; [auto|lia]|].
    destruct (exists_last (l := x ++ y ++ z)) as (i & e & Ei). { rewrite H. destruct ts; discriminate. }
    destruct z as [|z0 z1] eqn:EZ.
    - destruct y as [|y0 y1] eqn:EY.
      + rewrite !app_nil_r in H. exists []. right. split; auto. split; auto. exists ts. auto.
      + exfalso. apply NB. destruct (exists_last (l := y0 :: y1)) as (i' & e' & Ei'); [discriminate|]. rewrite Ei', app_nil_r, app_assoc in H. apply app_inj_tail in H as (_ & ->). rewrite Ei'. apply in_app_iff. simpl; auto.
    - destruct (exists_last (l := z0 :: z1)) as (i' & e' & Ei'); [discriminate|]. rewrite Ei', !app_assoc in H. apply app_inj_tail in H as (H & _). exists i'. left. split; [rewrite app_assoc; auto|]. rewrite Ei', app_length. simpl. destruct rest; [congruence|simpl; lia]. }
  destruct X as (z' & [(-> & LZ)|(-> & -> & x' & -> & ->)]).
  - apply Forall2_app_inv_l in F as (xs & c2 & FX & F2 & ->). apply Forall2_app_inv_l in F2 as (ys & zs & FY & FZ & ->). exists (List.concat xs), ys, (List.concat zs ++ rest).
    split; [rewrite !concat_app, <- !app_assoc; auto|]. split; auto. split.
    + intros NE. destruct FX as [|k ch ? ? R _]; [congruence|]. simpl. pose proof (rt_ne _ _ R). destruct ch; [congruence|discriminate].
    + rewrite app_length. pose proof (concat_length reads_tok z' zs rt_ne FZ). lia.
  - exists (List.concat chs ++ rest), [], []. split; [simpl; rewrite app_nil_r; auto|]. split; [constructor|]. split; [|auto]. intros _. destruct H as [H|(H & R)].
    + exfalso. rewrite !app_nil_r in E. rewrite E in H. apply (f_equal (@length tok)) in H. rewrite app_length in H. simpl in H. lia.
    + destruct (List.concat chs); [auto|discriminate].
Qed.
End Lexing.

(** * From tokens back to the bytes *)

Lemma reads_cps_length cps ws : Forall2 reads_cp cps ws -> (length cps <= length (List.concat ws))%nat.
Proof. induction 1 as [|c w cps ws (N & _) _ IH]; simpl; auto. rewrite app_length. destruct w; [congruence|simpl; lia]. Qed.

Lemma reads_small c w : reads_cp c w -> 0 <= c < 128 -> w = [Z.to_N c].
Proof. intros (_ & [->|H]) L; [lia|]. eapply rfc_small; eauto. Qed.

Lemma reads_bound cps ws : Forall2 reads_cp cps ws -> Forall (fun c => c < 1114112) cps.
Proof. induction 1 as [|c w cps ws (_ & [-> | H]) _ IH]; constructor; auto; [lia|]. destruct H; unfold scalar in *; lia. Qed.

(** A part of the code points comes from a part of the bytes. *)
Lemma cps_parts cps ws x y z : Forall2 reads_cp cps ws -> cps = x ++ y ++ z -> Forall (fun c => 0 <= c < 128) y ->
  exists a b, List.concat ws = a ++ map Z.to_N y ++ b /\ (x <> [] -> a <> []) /\ (length z <= length b)%nat.
Proof.
  intros F -> S. apply Forall2_app_inv_l in F as (xs & c2 & FX & F2 & ->). apply Forall2_app_inv_l in F2 as (ys & zs & FY & FZ & ->). exists (List.concat xs), (List.concat zs).
  assert (EY : List.concat ys = map Z.to_N y). { clear -FY S. induction FY as [|c w y ys R _ IH]; simpl; auto. inversion S; subst. rewrite (reads_small c w), IH; auto. }
  split; [rewrite !concat_app, EY; auto|]. split; [|apply reads_cps_length; auto]. intros NE. destruct FX as [|c w ? ? (N & _) _]; [congruence|]. simpl. destruct w; [congruence|discriminate].
Qed.

(** nodesUpperBound and the word boundaries of a text, in bytes *)
Fixpoint boundaries (prev : N) (text : list N) : N :=
  match text with
  | [] => 0
  | c :: t => ((if ((c =? 66) || (c =? 98)) && (prev =? 92) then 1 else 0) + boundaries c t)%N
  end.

Lemma measure_bytes : forall cps ws p q, Forall2 reads_cp cps ws -> (p = 92 -> q = 92%N) ->
  (N.of_nat (measure p cps) <= 2 * N.of_nat (length (List.concat ws)) + extra_nodes q (List.concat ws) + 2 * boundaries q (List.concat ws))%N.
Proof.
  intros cps ws p q F. revert p q. induction F as [|c w cps ws R F IH]; intros p q PQ; [simpl; lia|]. cbn [measure List.concat].
  assert (BIG : forall w q, w <> [] -> exists q', (2 * N.of_nat (length (List.concat ws)) + extra_nodes q' (List.concat ws) + 2 * boundaries q' (List.concat ws) + 2 <=
    2 * N.of_nat (length (w ++ List.concat ws)) + extra_nodes q (w ++ List.concat ws) + 2 * boundaries q (w ++ List.concat ws))%N /\ (q' = last w 0%N)).
  { clear. intros w. induction w as [|b w IHw]; intros q NE; [congruence|]. destruct w as [|b2 w].
    - exists b. split; [|auto]. cbn [app length extra_nodes boundaries]. lia.
    - destruct (IHw b ltac:(discriminate)) as (q' & L & E). exists q'. split; [|rewrite E; auto]. cbn [app length extra_nodes boundaries] in L |- *. lia. }
  destruct (Z.eq_dec c 92) as [->|N92].
  - rewrite (reads_small 92 w R) by lia. change (Z.to_N 92) with 92%N. change ((92 =? 94) || (92 =? 36)) with false. cbn [app length extra_nodes boundaries]. unfold is_wb. change ((92 =? 66) || (92 =? 98)) with false. cbn [andb].
    specialize (IH 92 92%N ltac:(auto)). change ((92 =? 66)%N || (92 =? 98)%N) with false. change ((92 =? 94)%N || (92 =? 36)%N) with false. cbn [andb]. lia.
  - assert (G : forall q', (N.of_nat (measure c cps) <= 2 * N.of_nat (length (List.concat ws)) + extra_nodes q' (List.concat ws) + 2 * boundaries q' (List.concat ws))%N) by (intros q'; apply IH; congruence).
    destruct ((c =? 94) || (c =? 36)) eqn:E1.
    + rewrite (reads_small c w R) by lia. cbn [app length extra_nodes boundaries]. specialize (G (Z.to_N c)). assert (((Z.to_N c =? 94) || (Z.to_N c =? 36))%N = true) as -> by lia. lia.
    + destruct (is_wb p c) eqn:E2.
      * unfold is_wb in E2. rewrite (reads_small c w R) by lia. specialize (PQ ltac:(lia)). subst q. cbn [app length extra_nodes boundaries]. specialize (G (Z.to_N c)).
        assert (((Z.to_N c =? 94) || (Z.to_N c =? 36))%N = false) as -> by lia. assert (((Z.to_N c =? 66) || (Z.to_N c =? 98))%N = true) as -> by lia. change (92 =? 92)%N with true. cbn [andb]. lia.
      * destruct (BIG w q (proj1 R)) as (q' & L & _). specialize (G q'). lia.
Qed.

Lemma boundaries_extra : forall text q, (6 * boundaries q text <= extra_nodes q text)%N.
Proof.
  induction text as [|c t IH]; intros q; simpl; [lia|]. specialize (IH c). destruct ((c =? 94)%N || (c =? 36)%N) eqn:E.
  - assert (((c =? 66) || (c =? 98))%N = false) as -> by lia. cbn [andb]. lia.
  - destruct (_ && _); lia.
Qed.
