(** C20: the byte-set sequences produced for a character class match exactly the encodings of
    its code points. *)
From Verif Require Import Base UtfModel UtfProofs Thm_Utf RangeSetModel RangeSetProofs ByteSetModel ByteSetProofs
  Thm_RangeSet Thm_ByteSet EncModel EncProofs EncUtf.
From Coq Require Import Sorting.Permutation.
Open Scope N_scope.

(** What the encodings are, independently of the encoder code. *)
Definition standard (c : charset) (cp : Z) (w : list N) : Prop :=
  match c with
  | ASCII => (0 <= cp < 128)%Z /\ w = [Z.to_N cp]
  | UTF8 => rfc3629 cp w
  | UTF16 le => rfc2781 le cp w
  | UTF32 le => utf32 le cp w
  end.

(** ROT-n on the ASCII letters. *)
Definition rotated (rot : N) (cp cp' : Z) : Prop :=
  (exists base i, (base = 65 \/ base = 97) /\ i < 26 /\ cp = Z.of_N (base + i) /\ cp' = Z.of_N (base + (i + rot) mod 26)) \/
  (~ (65 <= cp <= 90)%Z /\ ~ (97 <= cp <= 122)%Z /\ cp' = cp).

Inductive encodes : encoder -> Z -> list N -> Prop :=
| EncBase c cp w : standard c cp w -> encodes (EBase c) cp w
| EncOCE e cp w : encodes e cp w -> encodes (EOCE e) cp (map (fun b => nth (N.to_nat b) OCE 0) w)
| EncXOR k e cp w : encodes e cp w -> encodes (EXOR k e) cp (map (fun b => N.lxor b k) w)
| EncRot r e cp cp' w : rotated r cp cp' -> encodes e cp' w -> encodes (ERot r e) cp w.

(** Keys are bytes; rotations far below 2^32. *)
Fixpoint enc_ok (e : encoder) : Prop :=
  match e with
  | EBase _ => True
  | EOCE e => enc_ok e
  | EXOR k e => k < 256 /\ enc_ok e
  | ERot r e => r + 26 <= 2 ^ 32 /\ enc_ok e
  end.

(** A sequence of byte sets matches a byte string of the same length, byte by byte. *)
Definition row_matches (row : list bset) (w : list N) : Prop := Forall2 has row w.

Lemma base_std c cp w : standard c cp w <-> base_write c cp = w /\ w <> [].
Proof.
  destruct c as [| |le|le]; cbn [standard base_write].
  - split.
    + intros [H ->]. destruct (Z.ltb_spec cp 0); [lia|]. destruct (Z.ltb_spec cp 128); [|lia]. split; [auto|discriminate].
    + destruct (Z.ltb_spec cp 0); [intros []; congruence|]. destruct (Z.ltb_spec cp 128); [|intros []; congruence].
      intros [<- _]. split; [lia|auto].
  - rewrite u8_spec. unfold cp_to_utf8. destruct (Z.ltb_spec cp 0).
    + split; [lia|intros []; congruence].
    + rewrite utf8_bytes_u8. split; [intros (_ & ? & ->); auto|intros [<- ?]; auto].
  - rewrite u16_spec. unfold cp_to_utf16. destruct (Z.ltb_spec cp 0).
    + split; [lia|intros []; congruence].
    + rewrite utf16_bytes_u16. split; [intros (_ & ? & ->); auto|intros [<- ?]; auto].
  - rewrite u32_spec. unfold cp_to_utf32. destruct (Z.ltb_spec cp 0).
    + split; [lia|intros []; congruence].
    + rewrite utf32_bytes_u32. split; [intros (_ & ? & ->); auto|intros [<- ?]; auto].
Qed.

Lemma rotated_iff r cp cp' : r + 26 <= 2 ^ 32 -> (rotated r cp cp' <-> rot_char r cp = cp').
Proof.
  change (2 ^ 32) with 4294967296. intros Hr. unfold rotated, rot_char, two32.
  destruct ((65 <=? cp)%Z && (cp <=? 90)%Z) eqn:E1; [|destruct ((97 <=? cp)%Z && (cp <=? 122)%Z) eqn:E2].
  - split.
    + intros [(base & i & [-> | ->] & Hi & -> & ->)|(? & ? & ?)]; [|lia|lia].
      replace (Z.to_N (Z.of_N (65 + i) - 65)) with i by lia. rewrite (N.mod_small (i + r)) by lia. reflexivity.
    + intros <-. left. exists 65, (Z.to_N (cp - 65)). repeat split; lia.
  - split.
    + intros [(base & i & [-> | ->] & Hi & -> & ->)|(? & ? & ?)]; [lia| |lia].
      replace (Z.to_N (Z.of_N (97 + i) - 97)) with i by lia. rewrite (N.mod_small (i + r)) by lia. reflexivity.
    + intros <-. left. exists 97, (Z.to_N (cp - 97)). repeat split; lia.
  - split.
    + intros [(base & i & [-> | ->] & Hi & -> & ->)|(? & ? & ?)]; lia.
    + intros <-. right. lia.
Qed.

Lemma encodes_iff e : enc_ok e -> forall cp w, encodes e cp w <-> enc_write e cp = w /\ w <> [].
Proof.
  induction e as [c|e IH|k e IH|r e IH]; cbn [enc_ok]; intros OK cp w; cbn [enc_write].
  - rewrite <- base_std. split; [intros H; inversion H; auto|constructor; auto].
  - split.
    + intros H. inversion H as [|? ? w0 H0| |]; subst. apply IH in H0 as [<- Hn]; auto. split; [reflexivity|].
      destruct (enc_write e cp); [congruence|discriminate].
    + intros [<- Hn]. constructor. apply IH; auto. split; auto. intros E. rewrite E in Hn. auto.
  - destruct OK as [Hk OK]. split.
    + intros H. inversion H as [| |? ? ? w0 H0|]; subst. apply IH in H0 as [<- Hn]; auto. split; [reflexivity|].
      destruct (enc_write e cp); [congruence|discriminate].
    + intros [<- Hn]. constructor. apply IH; auto. split; auto. intros E. rewrite E in Hn. auto.
  - destruct OK as [Hk OK]. split.
    + intros H. inversion H as [| | |? ? ? cp' ? Hr H0]; subst. apply rotated_iff in Hr; auto. subst. apply IH; auto.
    + intros H. apply (EncRot r e cp (rot_char r cp)); [apply rotated_iff; auto|]. apply IH; auto.
Qed.

Lemma base_bytes c cp : EncProofs.bytes (base_write c cp) /\ (length (base_write c cp) <= maxByteLength (EBase c))%nat.
Proof.
  destruct (base_write c cp) eqn:E; [split; [constructor|simpl; lia]|].
  assert (H : standard c cp (n :: l)) by (apply base_std; split; [auto|discriminate]).
  rewrite <- E. rewrite <- E in H. clear E.
  destruct c as [| |le|le]; cbn [standard maxByteLength] in *.
  - destruct H as [H ->]. split; [repeat constructor; lia|simpl; lia].
  - destruct H; (split; [repeat constructor; lia|simpl; lia]).
  - destruct H; unfold scalar, two_bytes in *; destruct le; cbn [app]; (split; [repeat constructor; lia|simpl; lia]).
  - destruct H; unfold scalar in *; destruct le; (split; [repeat constructor; lia|simpl; lia]).
Qed.

Lemma oce_byte_lt b : b < 256 -> oce_byte b < 256.
Proof.
  intros H. unfold oce_byte. assert (F : Forall (fun x => x < 256) OCE) by (repeat (constructor; [reflexivity|]); constructor).
  rewrite Forall_forall in F. apply F. apply nth_In. change (length OCE) with 256%nat. lia.
Qed.
Lemma xor_byte_lt k b : k < 256 -> b < 256 -> xor_byte k b < 256.
Proof.
  intros Hk Hb. unfold xor_byte. apply (lt_pow2_bits _ 8). intros i Hi. rewrite N.lxor_spec, !byte_bits_high; auto.
Qed.

Lemma enc_bytes e : enc_ok e -> forall cp, EncProofs.bytes (enc_write e cp) /\ (length (enc_write e cp) <= maxByteLength e)%nat.
Proof.
  induction e as [c|e IH|k e IH|r e IH]; cbn [enc_ok]; intros OK cp; cbn [enc_write maxByteLength].
  - apply base_bytes.
  - destruct (IH OK cp) as [B L]. rewrite map_length. split; auto. apply Forall_map. eapply Forall_impl; [|apply B]. apply oce_byte_lt.
  - destruct OK as [Hk OK]. destruct (IH OK cp) as [B L]. rewrite map_length. split; auto. apply Forall_map.
    eapply Forall_impl; [|apply B]. intros. apply xor_byte_lt; auto.
  - apply IH. tauto.
Qed.

Lemma max_len_pos e : (1 <= maxByteLength e)%nat.
Proof. induction e as [[]|e IH|k e IH|r e IH]; simpl; auto. Qed.

Lemma valid_canon e : canon 1114112 (validCodePoints e).
Proof.
  induction e as [[]|e IH|k e IH|r e IH]; auto; cbn; split; repeat constructor; lia.
Qed.

Lemma valid_iff e x : par (validCodePoints e) x = true <-> enc_write e (Z.of_N x) <> [].
Proof.
  revert x. induction e as [c|e IH|k e IH|r e IH]; intros x; cbn [validCodePoints enc_write].
  - assert (U : par [0; 55296; 57344; 1114112] x = true <-> scalar (Z.of_N x)).
    { unfold scalar. rewrite (par_pair 0 55296), (par_pair 57344 1114112) by (repeat constructor; lia).
      replace (par [] x) with false by reflexivity. lia. }
    destruct c as [| |le|le].
    + rewrite (par_pair 0 128) by (repeat constructor; lia). replace (par [] x) with false by reflexivity. cbn [base_write].
      destruct (Z.ltb_spec (Z.of_N x) 0); [lia|]. destruct (Z.ltb_spec (Z.of_N x) 128); split; try discriminate; try lia; congruence.
    + rewrite U, base_write8. symmetry. apply u8_scalar.
    + rewrite U, base_write16. symmetry. apply u16_scalar.
    + rewrite U, base_write32. symmetry. apply u32_scalar.
  - rewrite IH. destruct (enc_write e (Z.of_N x)); simpl; split; congruence.
  - rewrite IH. destruct (enc_write e (Z.of_N x)); simpl; split; congruence.
  - assert (A : forall y, y < 128 -> par (validCodePoints e) y = true).
    { clear. intros y Hy. induction e as [c|e IH|k e IH|r e IH]; auto. cbn [validCodePoints]. destruct c.
      - rewrite (par_pair 0 128) by (repeat constructor; lia). lia.
      - rewrite (par_pair 0 55296) by (repeat constructor; lia). lia.
      - rewrite (par_pair 0 55296) by (repeat constructor; lia). lia.
      - rewrite (par_pair 0 55296) by (repeat constructor; lia). lia. }
    unfold rot_char.
    destruct ((65 <=? Z.of_N x)%Z && (Z.of_N x <=? 90)%Z) eqn:E1; [|destruct ((97 <=? Z.of_N x)%Z && (Z.of_N x <=? 122)%Z) eqn:E2].
    + rewrite <- IH. rewrite !A; [tauto| |lia]. pose proof (N.mod_lt ((Z.to_N (Z.of_N x - 65) + r) mod two32) 26). lia.
    + rewrite <- IH. rewrite !A; [tauto| |lia]. pose proof (N.mod_lt ((Z.to_N (Z.of_N x - 97) + r) mod two32) 26). lia.
    + apply IH.
Qed.

Section Sorts.
Variable sort : nat -> nat -> list (list bset) -> list (list bset).
Variable sort_len : list (list bset) -> list (list bset).
Hypothesis sort_perm : forall a b l, Permutation l (sort a b l).
Hypothesis sort_len_perm : forall l, Permutation l (sort_len l).

Lemma write_set_spec e u : enc_ok e -> canon 1114112 u -> (forall x, par u x = true -> par (validCodePoints e) x = true) ->
  exists vo, enc_write_set sort sort_len e u = Ok vo /\
    ((exists x, par u x = true) -> Forall (vgood (maxByteLength e)) vo) /\
    Forall (Forall bs_wf) vo /\
    forall w, lang vo w <-> exists x, par u x = true /\ enc_write e (Z.of_N x) = w.
Proof.
  intros OK C V. destruct (ranges_spec _ u C) as (O & P & _).
  assert (COL : forall va, Forall (vgood (maxByteLength e)) va -> (forall w, lang va w <-> exists x, par u x = true /\ enc_write e (Z.of_N x) = w) ->
    exists vo, collapse sort (maxByteLength e) 0 va [] = Ok vo /\
    ((exists x, par u x = true) -> Forall (vgood (maxByteLength e)) vo) /\ Forall (Forall bs_wf) vo /\
    forall w, lang vo w <-> exists x, par u x = true /\ enc_write e (Z.of_N x) = w).
  { intros va G L. destruct (collapse_spec sort sort_perm (maxByteLength e) (maxByteLength e) 0 va []) as (vo & E & Gv & Lv); auto.
    { eapply Forall_impl; [|exact G]. intros a Ha. split; auto. destruct Ha as (_ & ? & _). lia. }
    exists vo. split; auto. split; auto. split; [eapply Forall_impl; [|exact Gv]; intros a Ha; apply Ha|].
    intros w. rewrite Lv, lang_nil, L. tauto. }
  assert (GEN : exists vo, (va <- collect_ranges (enc_write e) (ranges u) [] [] ;;
      collapse sort (maxByteLength e) 0 (sort_len (rev va)) []) = Ok vo /\
      ((exists x, par u x = true) -> Forall (vgood (maxByteLength e)) vo) /\ Forall (Forall bs_wf) vo /\
      forall w, lang vo w <-> exists x, par u x = true /\ enc_write e (Z.of_N x) = w).
  { destruct (collect_ranges_spec (enc_write e) (maxByteLength e) (fun cp => proj1 (enc_bytes e OK cp)) (fun cp => proj2 (enc_bytes e OK cp))
      (ranges u) [] [] (fun _ => False)) as (va & E & G & L).
    - clear - O. generalize dependent 0. induction (ranges u) as [|[a b] t IH]; intros lo O; constructor; destruct O as (? & ? & ?); [simpl; lia|eauto].
    - constructor.
    - left; auto.
    - intros w. rewrite lang_nil. split; [tauto|intros (x & [] & _)].
    - rewrite E. cbn [bind]. apply COL.
      + apply Forall_forall. intros v Hv. apply (Permutation_in _ (Permutation_sym (sort_len_perm _))) in Hv. apply in_rev in Hv.
        rewrite Forall_forall in G. auto.
      + intros w. rewrite <- (lang_perm _ _ w (sort_len_perm (rev va))), lang_rev, L. split.
        * intros (x & [[]|Hx] & E2 & Hn). exists x. split; auto. apply P. auto.
        * intros (x & Hx & E2). exists x. split; [right; apply P; auto|]. split; auto. subst w. apply valid_iff. auto. }
  destruct e as [[| |le|le]|e|k e|r e]; auto.
  - cbn [enc_write_set]. destruct (ascii_ranges_spec (ranges u) 0 bs_empty O empty_wf) as (s & E & W & T). rewrite E. cbn [bind].
    assert (L : forall w, lang [[s]] w <-> exists x, par u x = true /\ enc_write (EBase ASCII) (Z.of_N x) = w).
    { intros w. rewrite lang_cons, lang_nil. split.
      - intros [H|[]]. inversion H as [|? b ? ? [Hb Ht] H2]; subst. inversion H2; subst. apply T in Ht; auto.
        rewrite empty_tb in Ht by auto. destruct Ht as [?|[Hb2 Hi]]; [discriminate|]. exists b. split; [apply P; auto|].
        cbn [enc_write base_write]. destruct (Z.ltb_spec (Z.of_N b) 0); [lia|]. destruct (Z.ltb_spec (Z.of_N b) 128); [|lia].
        rewrite N2Z.id. reflexivity.
      - intros (x & Hx & <-). left. pose proof (V x Hx) as Hv. apply valid_iff in Hv. cbn [enc_write base_write] in *.
        destruct (Z.ltb_spec (Z.of_N x) 0); [lia|]. destruct (Z.ltb_spec (Z.of_N x) 128); [|congruence]. rewrite N2Z.id.
        constructor; [|constructor]. split; [lia|]. apply T; [lia|]. right. split; [lia|]. apply P. auto. }
    eexists. split; [reflexivity|]. split; [|split; auto].
    intros (x & Hx). constructor; [|constructor]. split; [auto|]. split; [simpl; lia|].
    exists (enc_write (EBase ASCII) (Z.of_N x)). destruct (proj2 (L _) (ex_intro _ x (conj Hx eq_refl))) as (v & [<-|[]] & Hm). auto.
  - cbn [enc_write_set]. destruct (utf_collect_spec UTF8 u ltac:(discriminate) O) as (va & E & G & L).
    { intros x Hx. apply P in Hx. apply V in Hx. apply valid_iff in Hx. cbn [enc_write] in Hx. rewrite base_write8 in Hx. apply u8_scalar in Hx.
      unfold scal. unfold scalar in Hx. lia. }
    rewrite E. cbn [bind]. apply COL; [apply Forall_rev; auto|].
    intros w. rewrite lang_rev, L. split; intros (x & Hx & E2); exists x; split; auto; apply P; auto.
  - cbn [enc_write_set]. destruct (utf_collect_spec (UTF16 le) u ltac:(discriminate) O) as (va & E & G & L).
    { intros x Hx. apply P in Hx. apply V in Hx. apply valid_iff in Hx. cbn [enc_write] in Hx. rewrite base_write16 in Hx. apply u16_scalar in Hx.
      unfold scal. unfold scalar in Hx. lia. }
    rewrite E. cbn [bind]. apply COL; [apply Forall_rev; auto|].
    intros w. rewrite lang_rev, L. split; intros (x & Hx & E2); exists x; split; auto; apply P; auto.
  - cbn [enc_write_set]. destruct (utf_collect_spec (UTF32 le) u ltac:(discriminate) O) as (va & E & G & L).
    { intros x Hx. apply P in Hx. apply V in Hx. apply valid_iff in Hx. cbn [enc_write] in Hx. rewrite base_write32 in Hx. apply u32_scalar in Hx.
      unfold scal. unfold scalar in Hx. lia. }
    rewrite E. cbn [bind]. apply COL; [apply Forall_rev; auto|].
    intros w. rewrite lang_rev, L. split; intros (x & Hx & E2); exists x; split; auto; apply P; auto.
Qed.

End Sorts.

Lemma rows_lang vo w : Forall (Forall bs_wf) vo -> ((exists row, In row vo /\ row_matches row w) <-> lang vo w).
Proof.
  intros W. unfold lang. split; intros (v & Hi & Hm); exists v; split; auto; rewrite Forall_forall in W; specialize (W v Hi).
  - clear Hi. induction Hm as [|s b v w Hs Hm IH]; constructor; inversion W; subst; try (apply IH; assumption).
    unfold has in Hs. destruct (N.ltb_spec b 256).
    { rewrite test_tb in Hs by auto. split; auto. congruence. }
    { exfalso. unfold bs_test in Hs. destruct (N.leb_spec 256 b); [discriminate|lia]. }
  - clear Hi. induction Hm as [|s b v w [Hb Hs] Hm IH]; constructor; inversion W; subst; try (apply IH; assumption).
    unfold has. rewrite test_tb by auto. congruence.
Qed.

Definition universe : N := 1114112.

(** The set NFABuilder hands to the encoder for a class: nfabuilder.cpp:183. *)
Definition class_set (e : encoder) (x : expr) : res rset :=
  v <- run universe x ;; rs_and universe v (validCodePoints e).

Lemma class_set_spec e x : args_ok universe x -> exists u, class_set e x = Ok u /\ canon universe u /\
  forall y, par u y = true <-> (y < universe /\ members x y) /\ par (validCodePoints e) y = true.
Proof.
  intros A. unfold class_set. assert (HM : 0 < universe) by reflexivity.
  destruct (run_canon universe x HM A) as (v & -> & Cv & Pv). cbn [bind].
  destruct (and_spec universe v (validCodePoints e) HM Cv (valid_canon e)) as (u & E & Cu & Pu). exists u. split; auto. split; auto.
  intros y. destruct (N.ltb_spec y universe) as [Hy|Hy].
  - rewrite Pu, andb_true_iff by auto. rewrite (Pv y Hy). tauto.
  - split; [|lia]. intros H. exfalso.
    assert (Hu : par u y = false); [|congruence]. clear - Cu Hy. unfold par. rewrite cnt_all.
    + destruct Cu as [_ Ce _]. rewrite <- Nat.negb_even, Ce. reflexivity.
    + destruct Cu as [_ _ Cb]. eapply Forall_impl; [|exact Cb]. simpl. intros; lia.
Qed.

(** The rows produced for a class match a byte string iff it encodes a member of the class. *)
Definition exact (e : encoder) (x : expr) (rows : list (list bset)) : Prop :=
  forall w, (exists row, In row rows /\ row_matches row w) <->
            (exists cp, cp < universe /\ members x cp /\ encodes e (Z.of_N cp) w).

Lemma exact_of_lang e x u vo : enc_ok e -> Forall (Forall bs_wf) vo ->
  (forall y, par u y = true <-> (y < universe /\ members x y) /\ par (validCodePoints e) y = true) ->
  (forall w, lang vo w <-> exists y, par u y = true /\ enc_write e (Z.of_N y) = w) -> exact e x vo.
Proof.
  intros OK W Pu L w. rewrite rows_lang by auto. rewrite L. split.
  - intros (y & Hy & E). apply Pu in Hy as [[? ?] Hv]. exists y. repeat split; auto. apply encodes_iff; auto. split; auto.
    subst w. apply valid_iff. auto.
  - intros (y & ? & ? & He). apply encodes_iff in He as [E Hn]; auto. exists y. split; auto. apply Pu. repeat split; auto.
    apply valid_iff. congruence.
Qed.

(** C20, without the cache. *)
Theorem class_matches_exactly sort sort_len e x u :
  (forall a b l, Permutation l (sort a b l)) -> (forall l, Permutation l (sort_len l)) ->
  enc_ok e -> args_ok universe x -> class_set e x = Ok u ->
  exists rows, enc_write_set sort sort_len e u = Ok rows /\ exact e x rows.
Proof.
  intros Hs Hl OK A E. destruct (class_set_spec e x A) as (u' & E' & Cu & Pu). rewrite E in E'. injection E' as <-.
  destruct (write_set_spec sort sort_len Hs Hl e u OK Cu) as (vo & Ev & _ & W & L); [intros y Hy; apply Pu in Hy; tauto|].
  exists vo. split; auto. eapply exact_of_lang; eauto.
Qed.
Print Assumptions class_matches_exactly.

(** * The preset cache entries *)
Lemma bs_of_ranges_spec rs : forall s, Forall (fun r => fst r <= snd r /\ snd r <= 256) rs -> bs_wf s ->
  exists s', bs_of_ranges rs s = Ok s' /\ bs_wf s' /\ forall x, x < 256 -> (tb s' x = true <-> tb s x = true \/ inrs rs x).
Proof.
  induction rs as [|[a b] t IH]; intros s F W; cbn [bs_of_ranges].
  - exists s. sp; auto. intros x Hx. rewrite inrs_nil. tauto.
  - apply Forall_cons_iff in F as [[F1 F2] F]. cbn [fst snd] in *.
    destruct (set_range_spec s a b true W F1 F2) as (s1 & -> & W1 & T1). cbn [bind].
    destruct (IH s1 F W1) as (s2 & E2 & W2 & T2). exists s2. sp; auto. intros x Hx. rewrite T2, T1, inrs_cons by auto.
    destruct ((a <=? x) && (x <? b)) eqn:C.
    + split; auto. intros _. right. left. lia.
    + split; [intros [?|?]; auto|]. intros [?|[?|?]]; auto. lia.
Qed.

Lemma lit_row row : Forall (Forall (fun r => fst r <= snd r /\ snd r <= 256)) row ->
  exists v, mapM bs_lit row = Ok v /\ Forall bs_wf v /\ forall w, vmatch v w <-> Forall2 inrs row w.
Proof.
  induction 1 as [|rs row F Fr (v & E & W & M)]; cbn [mapM].
  - exists []. split; [auto|]. split; [constructor|]. intros w. unfold vmatch. split; intros H; inversion H; constructor.
  - unfold bs_lit at 1. destruct (bs_of_ranges_spec rs bs_empty F empty_wf) as (s & -> & Ws & Ts). cbn [bind]. rewrite E. cbn [bind].
    assert (In_lt : forall x, inrs rs x -> x < 256).
    { intros x (a & b & Hi & Hx). rewrite Forall_forall in F. specialize (F _ Hi). simpl in F. lia. }
    eexists. split; [reflexivity|]. split; [auto|]. intros w. unfold vmatch in *. split; intros H; inversion H; subst; constructor; auto.
    + match goal with H : _ < 256 /\ _ |- _ => destruct H as [Hb Ht] end. apply Ts in Ht; auto. rewrite empty_tb in Ht by auto. intuition discriminate.
    + apply M. auto.
    + split; [apply In_lt; auto|]. apply Ts; auto.
    + apply M. auto.
Qed.

Lemma lit_rows rows : Forall (Forall (Forall (fun r => fst r <= snd r /\ snd r <= 256))) rows ->
  exists vo, mapM (mapM bs_lit) rows = Ok vo /\ Forall (Forall bs_wf) vo /\
    forall w, lang vo w <-> exists row, In row rows /\ Forall2 inrs row w.
Proof.
  induction 1 as [|row rows F Fr (vo & E & W & M)]; cbn [mapM].
  - exists []. sp; auto; [rewrite lang_nil; tauto|intros (r & [] & _)].
  - destruct (lit_row row F) as (v & -> & Wv & Mv). cbn [bind]. rewrite E. cbn [bind]. eexists. split; [reflexivity|]. split; auto.
    intros w. rewrite lang_cons, M, Mv. split.
    + intros [H|(r & Hr & H)]; [exists row|exists r]; simpl; auto.
    + intros (r & [<-|Hr] & H); [auto|right; exists r; auto].
Qed.

Lemma inrs1 a b x : inrs [(a, b)] x <-> a <= x < b.
Proof. rewrite inrs_cons, inrs_nil. tauto. Qed.
Lemma inrs2 a b c d x : inrs [(a, b); (c, d)] x <-> a <= x < b \/ c <= x < d.
Proof. rewrite inrs_cons, inrs1. tauto. Qed.

Ltac inv_row := repeat match goal with
  | H : Forall2 inrs (_ :: _) _ |- _ => inversion H; clear H; subst
  | H : Forall2 inrs [] _ |- _ => inversion H; clear H; subst
  | H : inrs [_] _ |- _ => rewrite inrs1 in H
  | H : inrs [_; _] _ |- _ => rewrite inrs2 in H
  end.
Ltac mk_row := repeat first [apply Forall2_cons; [first [rewrite inrs1|rewrite inrs2]; lia|] | apply Forall2_nil].

Lemma any8 w : (exists row, In row (any_rows UTF8) /\ Forall2 inrs row w) <-> exists cp, rfc3629 cp w.
Proof.
  split.
  - intros (row & Hi & H). cbn [any_rows] in Hi. repeat (destruct Hi as [<-|Hi]; [inv_row|]); [..|destruct Hi].
    + eexists. apply U8_1. lia.
    + replace y with (192 + (y - 192)) by lia. replace y0 with (128 + (y0 - 128)) by lia. eexists. apply U8_2; lia.
    + replace y with (224 + (y - 224)) by lia. replace y0 with (128 + (y0 - 128)) by lia. replace y1 with (128 + (y1 - 128)) by lia.
      eexists. apply U8_3; try lia. unfold scalar. lia.
    + replace y with (224 + (y - 224)) by lia. replace y0 with (128 + (y0 - 128)) by lia. replace y1 with (128 + (y1 - 128)) by lia.
      eexists. apply U8_3; try lia. unfold scalar. lia.
    + replace y with (224 + (y - 224)) by lia. replace y0 with (128 + (y0 - 128)) by lia. replace y1 with (128 + (y1 - 128)) by lia.
      eexists. apply U8_3; try lia. unfold scalar. lia.
    + replace y with (240 + (y - 240)) by lia. replace y0 with (128 + (y0 - 128)) by lia. replace y1 with (128 + (y1 - 128)) by lia.
      replace y2 with (128 + (y2 - 128)) by lia. eexists. apply U8_4; try lia. unfold scalar. lia.
    + replace y with (240 + (y - 240)) by lia. replace y0 with (128 + (y0 - 128)) by lia. replace y1 with (128 + (y1 - 128)) by lia.
      replace y2 with (128 + (y2 - 128)) by lia. eexists. apply U8_4; try lia. unfold scalar. lia.
    + replace y with (240 + (y - 240)) by lia. replace y0 with (128 + (y0 - 128)) by lia. replace y1 with (128 + (y1 - 128)) by lia.
      replace y2 with (128 + (y2 - 128)) by lia. eexists. apply U8_4; try lia. unfold scalar. lia.
  - intros (cp & H). cbn [any_rows]. destruct H; unfold scalar in *.
    + eexists. split; [left; reflexivity|]. mk_row.
    + eexists. split; [right; left; reflexivity|]. mk_row.
    + assert (C : x = 0 \/ x = 13 \/ (x <> 0 /\ x <> 13)) by lia. destruct C as [C|[C|C]].
      * eexists. split; [do 2 right; left; reflexivity|]. mk_row.
      * eexists. split; [do 3 right; left; reflexivity|]. mk_row.
      * eexists. split; [do 4 right; left; reflexivity|]. mk_row.
    + assert (C : w = 0 \/ w = 4 \/ 1 <= w < 4) by lia. destruct C as [C|[C|C]].
      * eexists. split; [do 5 right; left; reflexivity|]. mk_row.
      * eexists. split; [do 6 right; left; reflexivity|]. mk_row.
      * eexists. split; [do 7 right; left; reflexivity|]. mk_row.
Qed.

Lemma any16 le w : (exists row, In row (any_rows (UTF16 le)) /\ Forall2 inrs row w) <-> exists cp, rfc2781 le cp w.
Proof.
  split.
  - intros (row & Hi & H). destruct le; cbn [any_rows] in Hi; repeat (destruct Hi as [<-|Hi]; [inv_row|]); try destruct Hi.
    + eexists. apply (U16_1 true y0 y); try lia. unfold scalar. lia.
    + eexists. apply (U16_2 true (((y0 - 216) * 256 + y) * 1024 + ((y2 - 220) * 256 + y1)) y0 y y2 y1); lia.
    + eexists. apply (U16_1 false y y0); try lia. unfold scalar. lia.
    + eexists. apply (U16_2 false (((y - 216) * 256 + y0) * 1024 + ((y1 - 220) * 256 + y2)) y y0 y1 y2); lia.
  - intros (cp & H). destruct H as [hi lo H1 H2 H3|u h1 l1 h2 l2 H1 H2 H3 H4 H5]; unfold scalar, two_bytes in *; destruct le; cbn [any_rows app].
    + eexists. split; [left; reflexivity|]. mk_row.
    + eexists. split; [left; reflexivity|]. mk_row.
    + eexists. split; [right; left; reflexivity|]. mk_row.
    + eexists. split; [right; left; reflexivity|]. mk_row.
Qed.

Lemma any32 le w : (exists row, In row (any_rows (UTF32 le)) /\ Forall2 inrs row w) <-> exists cp, utf32 le cp w.
Proof.
  split.
  - intros (row & Hi & H). destruct le; cbn [any_rows] in Hi; repeat (destruct Hi as [<-|Hi]; [inv_row|]); try destruct Hi.
    + eexists. apply (U32 true y2 y1 y0 y); try lia. unfold scalar. lia.
    + eexists. apply (U32 true y2 y1 y0 y); try lia. unfold scalar. lia.
    + eexists. apply (U32 false y y0 y1 y2); try lia. unfold scalar. lia.
    + eexists. apply (U32 false y y0 y1 y2); try lia. unfold scalar. lia.
  - intros (cp & H). destruct H as [a b c d H1 H2 H3 H4 H5]; unfold scalar in *.
    assert (C : c < 216 \/ 224 <= c \/ 216 <= c < 224) by lia.
    destruct le; cbn [any_rows].
    + destruct C as [C|[C|C]].
      * eexists. split; [right; left; reflexivity|]. mk_row.
      * eexists. split; [right; left; reflexivity|]. mk_row.
      * eexists. split; [left; reflexivity|]. mk_row.
    + assert (C2 : b = 0 \/ b <> 0) by lia. destruct C2 as [C2|C2].
      * eexists. split; [left; reflexivity|]. mk_row.
      * eexists. split; [right; left; reflexivity|]. mk_row.
Qed.

Lemma initial_cache_spec c : exists cache, initial_cache c = Ok cache /\
  forall u vo, In (u, vo) cache -> u = any_set /\ Forall (Forall bs_wf) vo /\
    forall w, lang vo w <-> exists y, par u y = true /\ enc_write (EBase c) (Z.of_N y) = w.
Proof.
  assert (G : c <> ASCII -> (forall w, (exists row, In row (any_rows c) /\ Forall2 inrs row w) <-> exists cp, standard c cp w) ->
    Forall (Forall (Forall (fun r => fst r <= snd r /\ snd r <= 256))) (any_rows c) ->
    exists cache, (v <- mapM (mapM bs_lit) (any_rows c) ;; Ok [(any_set, v)]) = Ok cache /\
    forall u vo, In (u, vo) cache -> u = any_set /\ Forall (Forall bs_wf) vo /\
      forall w, lang vo w <-> exists y, par u y = true /\ enc_write (EBase c) (Z.of_N y) = w).
  { intros Hc A F. destruct (lit_rows _ F) as (vo & -> & W & L). cbn [bind]. eexists. split; [reflexivity|].
    intros u vo' [[= <- <-]|[]]. split; auto. split; auto. intros w. rewrite L, A. 
    assert (V : any_set = validCodePoints (EBase c)) by (destruct c; [congruence|reflexivity..]). rewrite V. split.
    - intros (cp & H). assert (Hp : (0 <= cp)%Z).
      { destruct c as [| |le|le]; [congruence| | |]; cbn [standard] in H; [apply u8_spec in H|apply u16_spec in H|apply u32_spec in H]; tauto. }
      apply base_std in H as [H Hn]. exists (Z.to_N cp). rewrite valid_iff, Z2N.id by auto. cbn [enc_write]. split; [congruence|auto].
    - intros (y & Hv & E). apply valid_iff in Hv. exists (Z.of_N y). apply base_std. cbn [enc_write] in *. split; congruence. }
  assert (BD : forall c, Forall (Forall (Forall (fun r => fst r <= snd r /\ snd r <= 256))) (any_rows c)).
  { intros [| |[]|[]]; cbn [any_rows]; repeat constructor; cbn [fst snd]; lia. }
  destruct c as [| |le|le]; [exists []; split; [reflexivity|intros u vo []]| | |]; cbn [initial_cache]; apply G; auto; try discriminate.
  - apply any8. - apply any16. - apply any32.
Qed.

(** * Encoders as EncoderFactory hands them out, encoderfactory.cpp:39-49 and 118. *)
Definition factory_cache (e : encoder) : res ecache := match e with EBase c => initial_cache c | _ => Ok [] end.

(** A sequence of classes put to the same encoder. *)
Fixpoint serve sort sort_len (e : encoder) (cache : ecache) (us : list rset) : res (list (list (list bset))) :=
  match us with
  | [] => Ok []
  | u :: t => ' (rows, cache') <- cached_write sort sort_len e cache u ;;
              rest <- serve sort sort_len e cache' t ;; Ok (rows :: rest)
  end.

(** C20: every answer is exact, whatever was asked before. *)
Theorem class_requests_exact sort sort_len e xs us cache :
  (forall a b l, Permutation l (sort a b l)) -> (forall l, Permutation l (sort_len l)) ->
  enc_ok e -> Forall2 (fun x u => args_ok universe x /\ class_set e x = Ok u) xs us ->
  factory_cache e = Ok cache ->
  exists answers, serve sort sort_len e cache us = Ok answers /\ Forall2 (exact e) xs answers.
Proof.
  intros Hs Hl OK F Hc.
  set (good := fun cache : ecache => forall u vo, In (u, vo) cache -> Forall (Forall bs_wf) vo /\
    forall w, lang vo w <-> exists y, par u y = true /\ enc_write e (Z.of_N y) = w).
  assert (G : good cache).
  { destruct e as [c|e|k e|r e]; cbn [factory_cache] in Hc; try (injection Hc as <-; intros u vo []).
    destruct (initial_cache_spec c) as (c' & E & H). rewrite Hc in E. injection E as <-. intros u vo Hi. apply H; auto. }
  clear Hc. revert cache G. induction F as [|x u xs us [A E] F IH]; intros cache G; cbn [serve].
  - exists []. split; [auto|constructor].
  - destruct (class_set_spec e x A) as (u' & E' & Cu & Pu). rewrite E in E'. injection E' as <-. unfold cached_write.
    assert (FI : forall c vo, cache_find c u = Some vo -> In (u, vo) c).
    { induction c as [|[u1 v1] c IHc]; cbn [cache_find]; [discriminate|]. intros vo. destruct (list_eq_dec N.eq_dec u u1); [|right; auto].
      intros [= <-]. subst. left; auto. }
    destruct (cache_find cache u) as [vo|] eqn:Ef.
    + cbn [bind]. destruct (IH cache G) as (ans & -> & FA). cbn [bind]. eexists. split; [reflexivity|]. constructor; auto.
      destruct (G u vo (FI _ _ Ef)) as [W L]. eapply exact_of_lang; eauto.
    + destruct (write_set_spec sort sort_len Hs Hl e u OK Cu) as (vo & Ev & _ & W & L); [intros y Hy; apply Pu in Hy; tauto|].
      rewrite Ev. cbn [bind]. destruct (IH ((u, vo) :: cache)) as (ans & -> & FA).
      { intros u1 v1 [[= <- <-]|Hi]; auto. }
      cbn [bind]. eexists. split; [reflexivity|]. constructor; auto. eapply exact_of_lang; eauto.
Qed.
Print Assumptions class_requests_exact.

(** The letters a to z and the Greek capitals in UTF-8 as OCE. *)
Example class_case :
  let x := EInsert (ERange 97 123) 913 938 in
  enc_ok (EOCE (EBase UTF8)) /\ args_ok universe x /\ class_set (EOCE (EBase UTF8)) x = Ok [97; 123; 913; 938] /\
  exists rows, enc_write_set (fun _ _ l => l) (fun l => l) (EOCE (EBase UTF8)) [97; 123; 913; 938] = Ok rows /\
    length rows = 2%nat /\ exists row w, In row rows /\ row_matches row w /\ encodes (EOCE (EBase UTF8)) 937 w.
Proof.
  cbv zeta. split; [simpl; auto|]. split; [simpl; unfold universe; lia|]. split; [vm_compute; reflexivity|].
  assert (C : class_set (EOCE (EBase UTF8)) (EInsert (ERange 97 123) 913 938) = Ok [97; 123; 913; 938]) by (vm_compute; reflexivity).
  destruct (class_matches_exactly (fun _ _ l => l) (fun l => l) (EOCE (EBase UTF8)) (EInsert (ERange 97 123) 913 938) _
              (fun _ _ l => Permutation_refl l) (@Permutation_refl _) I ltac:(simpl; unfold universe; lia) C) as (rows & E & X).
  exists rows. split; auto. split; [vm_compute in E; injection E as <-; reflexivity|].
  destruct (proj2 (X (enc_write (EOCE (EBase UTF8)) 937))) as (row & Hi & Hr).
  { exists 937. split; [reflexivity|]. split; [simpl; lia|]. apply encodes_iff; [simpl; auto|]. split; auto. vm_compute. discriminate. }
  exists row, (enc_write (EOCE (EBase UTF8)) 937). repeat split; auto. apply encodes_iff; [simpl; auto|]. split; auto. vm_compute. discriminate.
Qed.
