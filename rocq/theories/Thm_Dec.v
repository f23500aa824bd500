(** C19, C24, C25, C26: decoding text, and the text around a hit. *)
From Verif Require Import Base UtfModel UtfProofs Thm_Utf EncModel EncProofs EncUtf Thm_Enc DecModel DecProofs.
Open Scope N_scope.

(** * C24 *)

(** Decoding the bytes from [beg] to [end_], after undoing the byte transformations [ts], splits
    them into encoded characters of the character set and single bytes at which no encoded
    character begins; see [segments]. *)
Theorem decoding_accounts_for_bytes rs cs ts buf beg end_ n :
  Forall bt_ok ts -> EncProofs.bytes buf -> (beg <= end_ <= length buf)%nat -> (end_ - beg <= n)%nat ->
  exists out, segments cs beg (map (undo ts) (firstn (end_ - beg) (skipn beg buf))) out /\
    drain buf (text_chain rs cs ts) n (dreset (text_chain rs cs ts) beg end_) =
      Ok (map (fun v => (unrots rs (fst v), snd v)) out).
Proof.
  intros OK B H Hn. destruct (chain_yields buf rs cs ts OK B beg (end_ - beg)) as (out & S & Y); [lia|].
  replace (beg + (end_ - beg))%nat with end_ in Y by lia. exists out. split; auto.
  apply (drain_yields buf _ end_); auto.
  - apply Forall_map. eapply Forall_impl; [|eapply segments_no_end; [|exact S]].
    + intros a Ha. cbn [fst]. apply unrots_range. auto.
    + apply Forall_map. eapply Forall_impl; [|apply (slice_bytes buf beg (end_ - beg) B)]. intros. apply undo_lt; auto.
  - rewrite map_length. apply segments_length in S. unfold slice in S. rewrite map_length, firstn_length in S. lia.
Qed.
Print Assumptions decoding_accounts_for_bytes.

Example decoding_example :
  drain [226; 130; 172; 255; 192; 65; 240; 159; 146] (text_chain [] UTF8 []) 9 (dreset (text_chain [] UTF8 []) 0 9) =
    Ok [(8364, 0%nat); (-256, 3%nat); (-193, 4%nat); (65, 5%nat); (-241, 6%nat); (-160, 7%nat); (-147, 8%nat)]%Z.
Proof. reflexivity. Qed.

(** * C19 *)

(** The encoder EncoderFactory assembles from the same chain, encoderfactory.cpp:66-117. *)
Fixpoint benc (cs : charset) (ts : list btrans) : encoder :=
  match ts with
  | [] => EBase cs
  | TOce :: t => EOCE (benc cs t)
  | TXor k :: t => EXOR k (benc cs t)
  end.
Definition text_encoder (rs : list N) (cs : charset) (ts : list btrans) : encoder :=
  fold_right ERot (benc cs (rev ts)) rs.

(** Code points with the positions their encodings begin at. *)
Fixpoint placed (e : encoder) (o : nat) (cps : list Z) : list dval :=
  match cps with [] => [] | cp :: t => (cp, o) :: placed e (o + length (enc_write e cp)) t end.

Lemma oce_inverse b : b < 256 -> undo1 TOce (oce_byte b) = b.
Proof.
  intros H. assert (F : forallb (fun b => undo1 TOce (oce_byte b) =? b) (map N.of_nat (seq 0 256)) = true) by (vm_compute; reflexivity).
  rewrite forallb_forall in F. specialize (F b). rewrite in_map_iff in F. apply N.eqb_eq. apply F.
  exists (N.to_nat b). split; [apply N2Nat.id|]. apply in_seq. lia.
Qed.

Lemma undo_app ts1 ts2 b : undo (ts1 ++ ts2) b = undo ts1 (undo ts2 b).
Proof. induction ts1; simpl; congruence. Qed.

Lemma benc_ok cs ts : Forall bt_ok ts -> enc_ok (benc cs ts).
Proof. induction 1 as [|[|k] ts Ht Hts IH]; simpl; auto. Qed.

Lemma undo_benc cs ts cp : Forall bt_ok ts -> map (undo (rev ts)) (enc_write (benc cs ts) cp) = base_write cs cp.
Proof.
  intros OK. induction OK as [|t ts Ht Hts IH]; cbn [rev].
  - rewrite map_ext with (g := fun x => x), map_id; auto.
  - rewrite <- IH. pose proof (proj1 (enc_bytes _ (benc_ok cs ts Hts) cp)) as B.
    destruct t as [|k]; cbn [benc enc_write]; rewrite map_map; apply map_ext_in; intros b Hb; rewrite undo_app; f_equal; cbn [undo].
    + apply oce_inverse. apply (proj1 (Forall_forall _ _) B b Hb).
    + unfold undo1, xor_byte. rewrite N.lxor_assoc, N.lxor_nilpotent, N.lxor_0_r. auto.
Qed.

Lemma unrot_rot i r : i < 26 -> r <= 26 -> ((i + r) mod 26 + 26 - r) mod 26 = i.
Proof.
  intros Hi Hr. assert (C : (i + r) mod 26 = i + r /\ i + r < 26 \/ (i + r) mod 26 = i + r - 26 /\ 26 <= i + r < 52).
  { destruct (N.ltb_spec (i + r) 26); [left; split; auto; apply N.mod_small; auto|right]. split; [|lia].
    symmetry. apply (N.mod_unique _ 26 1); lia. }
  destruct C as [[-> C]|[-> C]].
  - replace (i + r + 26 - r) with (i + 1 * 26) by lia. rewrite N.mod_add by lia. apply N.mod_small; auto.
  - replace (i + r - 26 + 26 - r) with i by lia. apply N.mod_small; auto.
Qed.

Lemma rot_inverse r cp : r <= 26 -> rot_val r (rot_char r cp) = cp.
Proof.
  intros Hr. unfold rot_char, two32.
  assert (A : forall i, i < 26 -> ((i + r) mod 26 + 26 + (4294967296 - r)) mod 4294967296 = (i + r) mod 26 + 26 - r).
  { intros i _. assert ((i + r) mod 26 < 26) by (apply N.mod_lt; lia). generalize dependent ((i + r) mod 26). intros j Hj.
    symmetry. apply (N.mod_unique _ 4294967296 1); lia. }
  destruct ((65 <=? cp)%Z && (cp <=? 90)%Z) eqn:E1.
  - rewrite (N.mod_small (_ + r)) by lia. unfold rot_val. set (j := (Z.to_N (cp - 65) + r) mod 26). assert (j < 26) by (unfold j; lia).
    replace ((65 <=? Z.of_N (65 + j))%Z && (Z.of_N (65 + j) <=? 90)%Z) with true by lia.
    unfold unrot, two32. rewrite (N.mod_small r) by lia.
    replace (Z.to_N (Z.of_N (65 + j)) - 65) with j by lia. unfold j. rewrite A, unrot_rot by lia. lia.
  - destruct ((97 <=? cp)%Z && (cp <=? 122)%Z) eqn:E2.
    + rewrite (N.mod_small (_ + r)) by lia. unfold rot_val. set (j := (Z.to_N (cp - 97) + r) mod 26). assert (j < 26) by (unfold j; lia).
      replace ((65 <=? Z.of_N (97 + j))%Z && (Z.of_N (97 + j) <=? 90)%Z) with false by lia.
      replace ((97 <=? Z.of_N (97 + j))%Z && (Z.of_N (97 + j) <=? 122)%Z) with true by lia.
      unfold unrot, two32. rewrite (N.mod_small r) by lia.
      replace (Z.to_N (Z.of_N (97 + j)) - 97) with j by lia. unfold j. rewrite A, unrot_rot by lia. lia.
    + unfold rot_val. rewrite E1, E2. auto.
Qed.

Fixpoint rots (rs : list N) (cp : Z) : Z := match rs with [] => cp | r :: t => rots t (rot_char r cp) end.

Lemma unrots_rots rs cp : Forall (fun r => r <= 26) rs -> unrots rs (rots rs cp) = cp.
Proof.
  intros F. revert cp. induction F as [|r rs Hr F IH]; intros cp; simpl; auto. rewrite IH. apply rot_inverse. auto.
Qed.

Lemma enc_text rs cs ts cp : enc_write (text_encoder rs cs ts) cp = enc_write (benc cs (rev ts)) (rots rs cp).
Proof. unfold text_encoder. revert cp. induction rs as [|r rs IH]; intros cp; simpl; auto. Qed.

Lemma standard_unique cs cp1 cp2 w1 w2 r1 r2 : w1 ++ r1 = w2 ++ r2 -> standard cs cp1 w1 -> standard cs cp2 w2 -> cp1 = cp2 /\ w1 = w2.
Proof.
  intros E H1 H2. pose proof (standard_nonneg _ _ _ H1). pose proof (standard_nonneg _ _ _ H2).
  assert (D : {cs = ASCII} + {cs <> ASCII}) by (destruct cs; [left; auto|right; discriminate..]). destruct D as [->|Hc].
  - destruct H1 as [? ->], H2 as [? ->]. injection E as E _. split; [lia|congruence].
  - assert (W : forall cp w r, standard cs cp w -> (0 <= cp)%Z -> utf_decode cs (w ++ r) = Some (length w, Z.to_N cp)).
    { intros cp w r Hs Hp. pose proof Hs as Hs'. apply base_std in Hs' as [Hw Hn]. subst w. clear Hn.
      destruct cs as [| |le|le]; [congruence| | |]; cbn [utf_decode base_write] in *.
      - apply u8_spec in Hs as (_ & Hn & E'). rewrite E' in *. apply u8_decode; auto.
      - apply u16_spec in Hs as (_ & Hn & E'). rewrite E' in *. apply u16_decode; auto.
      - apply u32_spec in Hs as (_ & Hn & E'). rewrite E' in *. apply u32_decode; auto. }
    pose proof (W _ _ r1 H1 ltac:(auto)) as A1. pose proof (W _ _ r2 H2 ltac:(auto)) as A2. rewrite E in A1. rewrite A1 in A2. injection A2 as L C.
    split; [lia|]. apply (f_equal (firstn (length w1))) in E. rewrite firstn_app, firstn_all, Nat.sub_diag in E. rewrite L, firstn_app, firstn_all, Nat.sub_diag in E.
    cbn [firstn] in E. rewrite !app_nil_r in E. auto.
Qed.

Lemma segments_text cs : forall l o out, Forall (fun cw => standard cs (fst cw) (snd cw)) l ->
  segments cs o (concat (map snd l)) out ->
  out = snd (fold_left (fun a cw => ((fst a + length (snd cw))%nat, snd a ++ [(fst cw, fst a)])) l (o, [])).
Proof.
  assert (G : forall l o acc out, Forall (fun cw => standard cs (fst cw) (snd cw)) l -> segments cs o (concat (map snd l)) out ->
    acc ++ out = snd (fold_left (fun a cw => ((fst a + length (snd cw))%nat, snd a ++ [(fst cw, fst a)])) l (o, acc))).
  { induction l as [|[cp w] l IH]; intros o acc out F S; cbn [map concat fold_left fst snd] in *.
    - inversion S as [| ? ? w ? ? Hw ? Ho Hn |]; subst; [apply app_nil_r|].
      pose proof (standard_length _ _ _ Hw). apply app_eq_nil in Hn as [-> _]. simpl in *. lia.
    - inversion F as [|? ? Hw F']; subst. cbn [fst snd] in *.
      inversion S as [? Hb Hn|? cp2 w2 rest2 out2 Hw2 S2 Ho Hn|? b rest out2 Hbad S2 Ho Hn]; subst.
      + symmetry in Hn. apply app_eq_nil in Hn as [-> _]. apply standard_length in Hw. simpl in Hw. lia.
      + destruct (standard_unique _ _ _ _ _ _ _ Hn Hw2 Hw) as [-> ->]. apply app_inv_head in Hn. subst rest2.
        rewrite <- (IH _ _ _ F' S2). rewrite <- app_assoc. reflexivity.
      + exfalso. apply (Hbad cp w (concat (map snd l))); auto. }
  intros l o out F S. rewrite <- (G l o [] out F S). auto.
Qed.

Lemma placed_fold (e : encoder) (g : Z -> Z) cps : forall o acc,
  acc ++ placed e o cps = snd (fold_left (fun a cp => ((fst a + length (enc_write e cp))%nat, snd a ++ [(cp, fst a)])) cps (o, acc)).
Proof.
  induction cps as [|cp cps IH]; intros o acc; cbn [placed fold_left fst snd]; [apply app_nil_r|].
  rewrite <- IH, <- app_assoc. reflexivity.
Qed.

(** Text encoded with a chain, anywhere in a buffer, decodes to itself with the same chain. *)
Theorem chain_round_trip rs cs ts pre cps post n :
  Forall (fun r => r <= 26) rs -> Forall bt_ok ts -> EncProofs.bytes pre -> EncProofs.bytes post ->
  Forall (fun cp => enc_write (text_encoder rs cs ts) cp <> []) cps ->
  let body := flat_map (enc_write (text_encoder rs cs ts)) cps in
  (length body <= n)%nat ->
  drain (pre ++ body ++ post) (text_chain rs cs ts) n
    (dreset (text_chain rs cs ts) (length pre) (length pre + length body)) = Ok (placed (text_encoder rs cs ts) (length pre) cps).
Proof.
  intros R OK Bp Bq V body Hn. set (e := text_encoder rs cs ts) in *.
  assert (OKr : Forall bt_ok (rev ts)) by (apply Forall_rev; auto).
  assert (EW : forall cp, enc_write e cp = enc_write (benc cs (rev ts)) (rots rs cp)) by (intros; apply enc_text).
  assert (Bb : EncProofs.bytes body).
  { unfold body. clear - EW OKr. induction cps as [|cp cps IH]; simpl; [constructor|]. apply Forall_app. split; auto.
    rewrite EW. apply enc_bytes. apply benc_ok. auto. }
  assert (B : EncProofs.bytes (pre ++ body ++ post)) by (unfold EncProofs.bytes in *; rewrite !Forall_app; auto).
  destruct (decoding_accounts_for_bytes rs cs ts (pre ++ body ++ post) (length pre) (length pre + length body) n OK B) as (out & S & ->).
  { rewrite !app_length. lia. } { lia. }
  f_equal. replace (length pre + length body - length pre)%nat with (length body) in S by lia.
  rewrite skipn_app, skipn_all, Nat.sub_diag in S. cbn [skipn app] in S. rewrite firstn_app, firstn_all, Nat.sub_diag in S. cbn [firstn] in S.
  rewrite app_nil_r in S.
  assert (UB : forall cp, map (undo ts) (enc_write e cp) = base_write cs (rots rs cp)).
  { intros cp. rewrite EW. rewrite <- (undo_benc cs (rev ts) (rots rs cp) OKr). rewrite rev_involutive. auto. }
  assert (Lw : forall cp, length (enc_write e cp) = length (base_write cs (rots rs cp))) by (intros cp; rewrite <- UB, map_length; auto).
  set (l := map (fun cp => (rots rs cp, base_write cs (rots rs cp))) cps).
  assert (Eb : map (undo ts) body = concat (map snd l)).
  { unfold l. rewrite map_map. cbn [snd]. unfold body. clear - UB. induction cps as [|cp cps IH]; simpl; auto. rewrite map_app, UB, IH. auto. }
  rewrite Eb in S. apply segments_text in S.
  2:{ unfold l. apply Forall_map. eapply Forall_impl; [|exact V]. intros cp Hcp. cbn [fst snd]. apply base_std. split; auto.
      intros E0. apply Hcp. specialize (Lw cp). rewrite E0 in Lw. destruct (enc_write e cp); [auto|discriminate]. }
  subst out. assert (P : forall o acc acc', map (fun v => (unrots rs (fst v), snd v)) acc = acc' ->
    map (fun v => (unrots rs (fst v), snd v)) (snd (fold_left (fun a cw => ((fst a + length (snd cw))%nat, snd a ++ [(fst cw, fst a)])) l (o, acc)))
    = acc' ++ placed e o cps).
  { unfold l. clear - R Lw. induction cps as [|cp cps IH]; intros o acc acc' Ha; cbn [map fold_left fst snd placed]; [rewrite app_nil_r; auto|].
    rewrite Lw. rewrite (IH _ _ (acc' ++ [(cp, o)])); [rewrite <- app_assoc; reflexivity|].
    rewrite map_app, Ha. cbn [map fst snd]. rewrite unrots_rots by auto. auto. }
  apply (P (length pre) [] []). auto.
Qed.
Print Assumptions chain_round_trip.

Example chain_round_trip_case :
  let rs := [13] in let ts := [TOce; TXor 85] in
  Forall (fun r => r <= 26) rs /\ Forall bt_ok ts /\
  Forall (fun cp => enc_write (text_encoder rs (UTF16 true) ts) cp <> []) [72; 128169]%Z /\
  flat_map (enc_write (text_encoder rs (UTF16 true) ts)) [72; 128169]%Z = [254; 20; 27; 131; 52; 17].
Proof.
  cbv zeta. split; [repeat constructor; lia|]. split; [repeat constructor|]. split; [|vm_compute; reflexivity].
  constructor; [|constructor; [|constructor]]; intros H; apply (f_equal (@length N)) in H; vm_compute in H; discriminate.
Qed.

(** A rotation by more than 26 is not undone: 'Z' comes back as 'V'. *)
Theorem rot_round_trip_refuted :
  exists r cp, 26 < r < 2 ^ 32 /\ rot_val r (rot_char r cp) <> cp.
Proof. exists 27, 90%Z. split; [lia|]. vm_compute. congruence. Qed.
Print Assumptions rot_round_trip_refuted.

(** * C26 *)

(** Values that cover the bytes of [buf] from one position to another without gap or overlap: each is
    a character whose encoding (after undoing the byte transformations) stands there, or a single
    byte reported as bad, either raw or with the transformations undone. *)
Inductive tiles (rs : list N) (cs : charset) (ts : list btrans) (buf : list N) : nat -> list dval -> nat -> Prop :=
| TNil o : tiles rs cs ts buf o [] o
| TChar o cp w out e : standard cs cp w -> map (undo ts) (firstn (length w) (skipn o buf)) = w ->
    tiles rs cs ts buf (o + length w) out e -> tiles rs cs ts buf o ((unrots rs cp, o) :: out) e
| TBad o b v out e : nth_error buf o = Some b -> v = (- Z.of_N b - 1)%Z \/ v = (- Z.of_N (undo ts b) - 1)%Z ->
    tiles rs cs ts buf (S o) out e -> tiles rs cs ts buf o ((v, o) :: out) e.

Lemma rot_val_neg r v : (v < 0)%Z -> rot_val r v = v.
Proof.
  intros H. unfold rot_val. replace ((65 <=? v)%Z && (v <=? 90)%Z) with false by lia.
  replace ((97 <=? v)%Z && (v <=? 122)%Z) with false by lia. auto.
Qed.
Lemma unrots_neg rs v : (v < 0)%Z -> unrots rs v = v.
Proof. intros H. induction rs as [|r rs IH]; simpl; auto. rewrite IH. apply rot_val_neg. auto. Qed.
Lemma unrots_nonneg rs v : (0 <= v)%Z -> (0 <= unrots rs v)%Z.
Proof.
  intros H. induction rs as [|r rs IH]; simpl; auto. unfold rot_val, unrot.
  destruct ((65 <=? unrots rs v)%Z && (unrots rs v <=? 90)%Z); [lia|]. destruct ((97 <=? unrots rs v)%Z && (unrots rs v <=? 122)%Z); lia.
Qed.

Lemma skipn_skipn {A} a : forall b (l : list A), skipn a (skipn b l) = skipn (a + b) l.
Proof.
  induction b as [|b IH]; intros l; [rewrite Nat.add_0_r; auto|]. destruct l as [|x l]; [rewrite !skipn_nil; auto|].
  rewrite Nat.add_succ_r. cbn [skipn]. apply IH.
Qed.

Lemma count_bad_app l1 l2 : count_bad (l1 ++ l2) = count_bad l1 + count_bad l2.
Proof. unfold count_bad. rewrite filter_app, app_length. lia. Qed.
Lemma count_bad_rev l : count_bad (rev l) = count_bad l.
Proof. induction l as [|v l IH]; auto. cbn [rev]. rewrite count_bad_app, IH. change (v :: l) with ([v] ++ l). rewrite count_bad_app. lia. Qed.
Lemma count_bad_le l : count_bad l <= N.of_nat (length l).
Proof. unfold count_bad. induction l as [|v l IH]; cbn [filter length]; [lia|]. destruct (fst v <? 0)%Z; cbn [length]; lia. Qed.
Lemma good_run_firstn n : forall x, good_run (firstn n x) = Nat.min n (good_run x).
Proof.
  induction n as [|n IH]; intros [|[v o] x]; simpl; auto. destruct (v <? 0)%Z; auto.
Qed.
Lemma good_run_good n : forall x, (n <= good_run x)%nat -> count_bad (firstn n x) = 0.
Proof.
  induction n as [|n IH]; intros [|[v o] x] H; cbn [firstn]; auto. cbn [good_run] in H. unfold count_bad. cbn [filter fst].
  destruct (v <? 0)%Z; [lia|]. apply IH. lia.
Qed.
Lemma good_run_le x : (good_run x <= length x)%nat.
Proof. induction x as [|[v o] x IH]; simpl; [lia|]. destruct (v <? 0)%Z; lia. Qed.
Lemma rev_last_n n (l : list dval) : rev (last_n n l) = firstn n (rev l).
Proof. unfold last_n. rewrite firstn_rev. auto. Qed.
Lemma adj_last_n n l : adj_good (last_n n l) = Nat.min n (adj_good l).
Proof. unfold adj_good. rewrite rev_last_n. apply good_run_firstn. Qed.
Lemma bad_last_good n l : (n <= adj_good l)%nat -> count_bad (last_n n l) = 0.
Proof. intros H. rewrite <- count_bad_rev, rev_last_n. apply good_run_good. auto. Qed.
Lemma last_n_length n (l : list dval) : length (last_n n l) = Nat.min n (length l).
Proof. unfold last_n. rewrite skipn_length. lia. Qed.
Lemma last_n_split n (l : list dval) : l = firstn (length l - n) l ++ last_n n l.
Proof. unfold last_n. rewrite firstn_skipn. auto. Qed.
Lemma last_n_all n (l : list dval) : (length l <= n)%nat -> last_n n l = l.
Proof. intros H. unfold last_n. replace (length l - n)%nat with 0%nat by lia. auto. Qed.
Lemma last_n_bad n l : count_bad (last_n n l) <= count_bad l.
Proof. rewrite (last_n_split n l) at 2. rewrite count_bad_app. lia. Qed.

Section Windows.
Variables (rs : list N) (cs : charset) (ts : list btrans) (buf : list N).
Hypothesis OK : Forall bt_ok ts.
Hypothesis B : EncProofs.bytes buf.
Let c := text_chain rs cs ts.
Let tile := tiles rs cs ts buf.
Let out_of (l : list dval) := map (fun v => (unrots rs (fst v), snd v)) l.

Lemma segments_tiles : forall o bs out, segments cs o bs out -> forall n, (o + n <= length buf)%nat ->
  bs = map (undo ts) (firstn n (skipn o buf)) -> tile o (out_of out) (o + n).
Proof.
  induction 1 as [o|o cp w rest out Hw Sg IH|o b rest out Hbad Sg IH]; intros n Hn E.
  - apply (f_equal (@length N)) in E. rewrite map_length, firstn_length, skipn_length in E. simpl in E.
    replace (o + n)%nat with o by lia. constructor.
  - assert (L : length (w ++ rest) = n) by (rewrite E, map_length, firstn_length, skipn_length; lia).
    rewrite app_length in L. cbn [map out_of fst snd].
    assert (E1 : map (undo ts) (firstn (length w) (skipn o buf)) = w).
    { apply (f_equal (firstn (length w))) in E. rewrite firstn_app, firstn_all, Nat.sub_diag in E. cbn [firstn] in E. rewrite app_nil_r in E.
      rewrite firstn_map, firstn_firstn in E. replace (Nat.min (length w) n) with (length w) in E by lia. auto. }
    assert (E2 : rest = map (undo ts) (firstn (n - length w) (skipn (o + length w) buf))).
    { apply (f_equal (skipn (length w))) in E. rewrite skipn_app, skipn_all, Nat.sub_diag in E. cbn [skipn app] in E.
      rewrite skipn_map, skipn_firstn_comm, skipn_skipn in E. rewrite (Nat.add_comm o). auto. }
    apply TChar with (w := w); auto.
    replace (o + n)%nat with (o + length w + (n - length w))%nat by lia. apply IH; auto; lia.
  - destruct n as [|n]; [discriminate|]. destruct (nth_error buf o) as [b0|] eqn:Eb; [|apply nth_error_None in Eb; lia].
    rewrite (RangeSetProofs.skipn_cons _ _ _ Eb) in E. cbn [firstn map] in E. injection E as -> E.
    cbn [map out_of fst snd]. rewrite unrots_neg by lia. apply TBad with (b := b0); auto.
    replace (o + S n)%nat with (S o + n)%nat by lia. apply IH; auto. lia.
Qed.

Lemma tiles_le o l e : tile o l e -> (o <= e)%nat.
Proof. induction 1; lia. Qed.
Lemma tiles_len o l e : tile o l e -> (o <= length buf -> e <= length buf)%nat.
Proof.
  induction 1; auto.
  - intros Ho. apply IHtiles. apply (f_equal (@length N)) in H0. rewrite map_length, firstn_length, skipn_length in H0. lia.
  - intros Ho. apply IHtiles. assert (o < length buf)%nat by (apply nth_error_Some; congruence). lia.
Qed.
Lemma tiles_length o l e : tile o l e -> (length l <= e - o)%nat.
Proof.
  induction 1 as [|o cp w out e Hw E T IH|]; cbn [length]; [lia| |].
  - pose proof (standard_length _ _ _ Hw). apply tiles_le in T. lia.
  - apply tiles_le in H1. lia.
Qed.
Lemma tiles_offsets o l e : tile o l e -> Forall (fun v => o <= snd v < e)%nat l.
Proof.
  induction 1 as [|o cp w out e Hw E T IH|o b v out e Hb Hv T IH]; constructor.
  - pose proof (standard_length _ _ _ Hw). apply tiles_le in T. cbn [snd]. lia.
  - eapply Forall_impl; [|exact IH]. cbv beta. lia.
  - apply tiles_le in T. cbn [snd]. lia.
  - eapply Forall_impl; [|exact IH]. cbv beta. lia.
Qed.
Lemma tiles_app l1 : forall o l2 e, tile o (l1 ++ l2) e <-> exists m, tile o l1 m /\ tile m l2 e.
Proof.
  induction l1 as [|v l1 IH]; intros o l2 e; cbn [app].
  - split; [intros H; exists o; split; auto; constructor|]. intros (m & H1 & H2). inversion H1; subst. auto.
  - split.
    + intros H. inversion H; subst.
      * apply IH in H6 as (m & ? & ?). exists m. split; auto. econstructor; eauto.
      * apply IH in H6 as (m & ? & ?). exists m. split; auto. econstructor; eauto.
    + intros (m & H1 & H2). inversion H1; subst.
      * econstructor; eauto. apply IH. eauto.
      * econstructor; eauto. apply IH. eauto.
Qed.
Lemma tiles_no_end o l e : tile o l e -> Forall (fun v => fst v <> END) l.
Proof.
  induction 1 as [|o cp w out e Hw E T IH|o b v out e Hb Hv T IH]; constructor; auto; cbn [fst].
  - apply standard_nonneg in Hw. apply (unrots_nonneg rs) in Hw. unfold END. lia.
  - assert (b < 256) by (apply (proj1 (Forall_forall _ _) B b); eapply nth_error_In; eauto).
    pose proof (undo_lt ts b OK H). unfold END. lia.
Qed.

Lemma chain_tiles beg n : (beg + n <= length buf)%nat ->
  exists l, tile beg l (beg + n) /\ yields buf c (beg + n) (dreset c beg (beg + n)) l.
Proof.
  intros H. destruct (chain_yields buf rs cs ts OK B beg n H) as (out & S & Y). exists (out_of out). split; auto.
  eapply segments_tiles; eauto.
Qed.

Lemma pad_left_tiles leading e : forall n l, (n <= length buf)%nat -> tile n l e ->
  exists n' l', pad_left buf n l leading = Ok l' /\ tile n' l' e /\ (n' <= n)%nat /\ ((leading <= length l')%nat \/ n' = 0%nat).
Proof.
  induction n as [|n IH]; intros l Hn T; cbn [pad_left]; destruct (Nat.ltb_spec (length l) leading).
  - exists 0%nat, l. auto.
  - exists 0%nat, l. auto.
  - destruct (nth_error buf n) as [b|] eqn:Eb; [|apply nth_error_None in Eb; lia]. unfold get at 1. rewrite Eb. cbn [bind].
    destruct (IH ((badv (Z.of_N b), n) :: l)) as (n' & l' & E & T' & L & D); [lia|econstructor; eauto|].
    exists n', l'. repeat split; auto.
  - exists (S n), l. auto.
Qed.

(** What the leading context has to satisfy. *)
Let lead_ok hbeg leading (l : list dval) : Prop :=
  exists start, tile start l hbeg /\ (length l <= leading)%nat /\ (length l = leading \/ start = 0%nat).

Lemma last_n_ok hbeg leading n l : tile n l hbeg -> (leading <= length l)%nat \/ n = 0%nat -> lead_ok hbeg leading (last_n leading l).
Proof.
  intros T D. unfold last_n. pose proof T as T0. rewrite <- (firstn_skipn (length l - leading) l) in T0. apply tiles_app in T0 as (m & T1 & T2).
  exists m. split; auto. rewrite skipn_length. split; [lia|]. destruct (Nat.le_gt_cases leading (length l)); [left; lia|].
  right. destruct D as [D|D]; [lia|]. replace (length l - leading)%nat with 0%nat in T1 by lia. inversion T1; subst. auto.
Qed.


Let lval hbeg leading k : res (list dval) :=
  l0 <- drain buf c k (dreset c (hbeg - k) hbeg) ;; pad_left buf (hbeg - k) l0 leading.
Let inv (l : list dval) : N := (uint_max + two32 - count_bad l mod two32) mod two32.
Let le2 (a : nat) (i : N) (b : nat) (j : N) : Prop := (a < b)%nat \/ a = b /\ i <= j.

Lemma not_worse_le2 a i b j : not_worse a i b j = true <-> le2 b j a i.
Proof. unfold not_worse, le2. rewrite Bool.orb_true_iff, Bool.andb_true_iff, Nat.ltb_lt, Nat.eqb_eq, N.leb_le. tauto. Qed.
Lemma not_not_worse_le2 a i b j : not_worse a i b j = false -> le2 a i b j.
Proof. unfold not_worse, le2. rewrite Bool.orb_false_iff, Bool.andb_false_iff, Nat.ltb_ge, Nat.eqb_neq, N.leb_gt. lia. Qed.

Lemma lval_spec hbeg leading k : (hbeg <= length buf)%nat -> (k <= hbeg)%nat ->
  exists l0 start l, tile (hbeg - k) l0 hbeg /\ yields buf c hbeg (dreset c (hbeg - k) hbeg) l0 /\
    lval hbeg leading k = Ok l /\ tile start l hbeg /\ (start <= hbeg - k)%nat /\ ((leading <= length l)%nat \/ start = 0%nat) /\
    ((leading <= length l0)%nat -> l = l0) /\ ((length l0 <= leading)%nat -> (length l <= leading)%nat).
Proof.
  intros Hb Hk. destruct (chain_tiles (hbeg - k) k) as (l0 & T & Y); [lia|]. replace (hbeg - k + k)%nat with hbeg in T, Y by lia.
  destruct (pad_left_tiles leading hbeg (hbeg - k) l0) as (n' & l & E & T' & L & D); [lia|auto|].
  exists l0, n', l. split; auto. split; auto. split.
  { unfold lval. rewrite (drain_yields buf c hbeg l0 k); auto; [eapply tiles_no_end; eauto|]. apply tiles_length in T. lia. }
  split; auto. split; auto. split; auto. split.
  - intros G. destruct (hbeg - k)%nat; cbn [pad_left] in E; destruct (Nat.ltb_spec (length l0) leading); congruence || lia.
  - intros G. clear - E G. revert l0 G E. induction (hbeg - k)%nat as [|m IH]; intros l0 G E; cbn [pad_left] in E;
      destruct (Nat.ltb_spec (length l0) leading); try (injection E as <-; auto; fail).
    unfold get in E. destruct (nth_error buf m); [|discriminate]. cbn [bind] in E. apply IH in E; auto.
Qed.

Lemma lead_loop_spec hbeg leading : (hbeg <= length buf)%nat -> forall rounds k ma mi cps, (k + rounds <= S hbeg)%nat -> (1 <= k)%nat ->
  exists ma' mi' cps', lead_loop buf c hbeg leading rounds k ma mi cps = Ok (mi', cps') /\
    ((ma', mi', cps') = (ma, mi, cps) \/ exists k0 l, (k <= k0 < k + rounds)%nat /\ lval hbeg leading k0 = Ok l /\
        ma' = adj_good l /\ mi' = inv l /\ cps' = last_n leading l) /\
    le2 ma mi ma' mi' /\
    (forall k0 l, (k <= k0 < k + rounds)%nat -> lval hbeg leading k0 = Ok l -> le2 (adj_good l) (inv l) ma' mi').
Proof.
  intros Hb. induction rounds as [|r IH]; intros k ma mi cps Hk H1; cbn [lead_loop].
  - exists ma, mi, cps. split; auto. split; auto. split; [right; lia|]. intros; lia.
  - destruct (lval_spec hbeg leading k) as (l0 & start & l & T & Y & EL & T' & St & D & _); [lia..|].
    replace (hbeg - (hbeg - k))%nat with k by lia.
    pose proof EL as EL'. unfold lval in EL'. apply bind_ok in EL' as (x & E1 & E2). rewrite E1. cbn [bind]. rewrite E2. cbn [bind]. fold (inv l).
    destruct (not_worse (adj_good l) (inv l) ma mi) eqn:W.
    + apply not_worse_le2 in W. destruct (IH (S k) (adj_good l) (inv l) (last_n leading l)) as (ma' & mi' & cps' & E & C & L & M); [lia..|].
      exists ma', mi', cps'. split; auto. split.
      { right. destruct C as [C|(k0 & l' & Hk0 & C)]; [injection C as -> -> ->; exists k, l; repeat split; auto; lia|].
        exists k0, l'. split; [lia|auto]. }
      split; [unfold le2 in *; lia|]. intros k0 l' Hk0 El. destruct (Nat.eq_dec k0 k) as [->|]; [rewrite EL in El; injection El as <-; auto|].
      apply (M k0); auto. lia.
    + apply not_not_worse_le2 in W. destruct (IH (S k) ma mi cps) as (ma' & mi' & cps' & E & C & L & M); [lia..|].
      exists ma', mi', cps'. split; auto. split.
      { destruct C as [C|(k0 & l' & Hk0 & C)]; [left; auto|right]. exists k0, l'. split; [lia|auto]. }
      split; auto. intros k0 l' Hk0 El. destruct (Nat.eq_dec k0 k) as [->|]; [rewrite EL in El; injection El as <-; unfold le2 in *; lia|].
      apply (M k0); auto. lia.
Qed.

Lemma lead_spec hbeg leading rounds : (hbeg <= length buf)%nat -> (rounds <= hbeg)%nat -> (1 <= rounds)%nat ->
  exists k0 l mi cps, lead_loop buf c hbeg leading rounds 1 0 0 [] = Ok (mi, cps) /\ (1 <= k0 <= rounds)%nat /\
    lval hbeg leading k0 = Ok l /\ mi = inv l /\ cps = last_n leading l /\
    (forall k1 l1, (1 <= k1 <= rounds)%nat -> lval hbeg leading k1 = Ok l1 -> le2 (adj_good l1) (inv l1) (adj_good l) (inv l)).
Proof.
  intros Hb Hr H1. destruct rounds as [|r]; [lia|]. cbn [lead_loop].
  destruct (lval_spec hbeg leading 1) as (l0 & start & l & T & Y & EL & T' & St & D & _); [lia..|].
  replace (hbeg - (hbeg - 1))%nat with 1%nat by lia.
  pose proof EL as EL'. unfold lval in EL'. apply bind_ok in EL' as (x & E1 & E2). rewrite E1. cbn [bind]. rewrite E2. cbn [bind]. fold (inv l).
  replace (not_worse (adj_good l) (inv l) 0 0) with true by (symmetry; apply not_worse_le2; unfold le2; lia).
  destruct (lead_loop_spec hbeg leading Hb r 2 (adj_good l) (inv l) (last_n leading l)) as (ma' & mi' & cps' & E & C & L & M); [lia..|].
  destruct C as [C|(k0 & l' & Hk0 & El & -> & -> & ->)].
  - injection C as -> -> ->. exists 1%nat, l, (inv l), (last_n leading l). repeat split; auto; try lia.
    intros k1 l1 Hk El. destruct (Nat.eq_dec k1 1) as [->|]; [rewrite EL in El; injection El as <-; auto|]. apply (M k1); auto. lia.
  - exists k0, l', (inv l'), (last_n leading l'). repeat split; auto; try lia.
    intros k1 l1 Hk El1. destruct (Nat.eq_dec k1 1) as [->|]; [rewrite EL in El1; injection El1 as <-; auto|]. apply (M k1); auto. lia.
Qed.

(** The loops over the hit and over what follows. *)
Lemma hit_loop_spec hend e : forall n l o s, (hend <= e)%nat -> tile o l e -> yields buf c e s l -> (length l <= n)%nat ->
  exists hit rest s', l = hit ++ rest /\ hit_loop buf c hend n s = Ok (hit, hd (END, e) rest, s') /\ yields buf c e s' (tl rest) /\
    Forall (fun v => snd v < hend)%nat hit /\ Forall (fun v => hend <= snd v)%nat rest.
Proof.
  induction n as [|n IH]; intros l o s He T Y Hn.
  - destruct l; [|simpl in Hn; lia]. destruct (yields_step _ _ _ _ _ Y) as (s' & E & Y'). exists [], [], s'. cbn [hit_loop hd tl] in *. rewrite E. cbn [bind snd].
    destruct (Nat.ltb_spec e hend); [lia|]. auto.
  - destruct (yields_step _ _ _ _ _ Y) as (s' & E & Y'). cbn [hit_loop]. rewrite E. cbn [bind]. destruct l as [|v l]; cbn [hd tl] in *.
    + exists [], [], s'. cbn [snd hd tl]. destruct (Nat.ltb_spec e hend); [lia|]. auto.
    + destruct (Nat.ltb_spec (snd v) hend).
      * assert (T' : exists o', tile o' l e) by (inversion T; subst; eauto). destruct T' as [o' T'].
        destruct (IH l o' s' He T' Y') as (hit & rest & s2 & -> & E2 & Y2 & F1 & F2); [simpl in Hn; lia|].
        exists (v :: hit), rest, s2. rewrite E2. cbn [bind]. repeat split; auto.
      * exists [], (v :: l), s'. cbn [hd tl]. repeat split; auto. constructor; auto.
        assert (T' : exists o', tile o' l e /\ (snd v < o')%nat).
        { inversion T as [|? ? w ? ? Hw|]; subst; [|eauto]. apply standard_length in Hw. exists (o + length w)%nat. cbn [snd]. split; auto. lia. }
        destruct T' as (o' & T' & Ho'). eapply Forall_impl; [|eapply tiles_offsets; eauto]. cbv beta. lia.
Qed.

Lemma trail_loop_spec e : forall n t l s, yields buf c e s (tl l) -> Forall (fun v => fst v <> END) l -> (length l <= n)%nat ->
  (0 < t)%nat -> N.of_nat t < two64 ->
  trail_loop buf c n (N.of_nat t) (hd (END, e) l) s = Ok (firstn t l, hd (END, e) (skipn t l)).
Proof.
  induction n as [|n IH]; intros t l s Y F Hn Ht Ht2.
  - destruct l; [|simpl in Hn; lia]. cbn [trail_loop hd fst]. rewrite Z.eqb_refl, firstn_nil, skipn_nil. auto.
  - cbn [trail_loop]. destruct l as [|v l]; cbn [hd fst]; [rewrite Z.eqb_refl, firstn_nil, skipn_nil; auto|].
    inversion F as [|? ? Fv Fl]; subst. destruct (Z.eqb_spec (fst v) END); [contradiction|]. cbn [tl] in Y.
    destruct (yields_step _ _ _ _ _ Y) as (s' & E & Y'). rewrite E. cbn [bind].
    replace ((N.of_nat t + (two64 - 1)) mod two64) with (N.of_nat (t - 1)).
    2:{ unfold two64 in *. apply (N.mod_unique _ 18446744073709551616 1); lia. }
    destruct t as [|t]; [lia|]. replace (S t - 1)%nat with t by lia. cbn [firstn skipn].
    destruct (N.ltb_spec 0 (N.of_nat t)).
    + rewrite IH; auto; try lia. simpl in Hn. lia.
    + assert (t = 0%nat) by lia. subst t. reflexivity.
Qed.

Lemma dmax_pos : (1 <= dmax c)%nat /\ (dmax c <= 4)%nat.
Proof.
  unfold c, text_chain. clear. induction rs as [|r l IH]; cbn [rchain dmax]; auto.
  assert (D : dmax (bchain ts) = 1%nat) by (induction ts as [|[|k] t IH]; simpl; auto).
  destruct cs; rewrite D; simpl; lia.
Qed.

(** Decoding from the start of one of the values gives the values from there. *)
Lemma segments_suffix : forall o bs out, segments cs o bs out -> forall d r, out = d ++ r ->
  exists j, (j <= length bs)%nat /\ segments cs (o + j) (skipn j bs) r.
Proof.
  induction 1 as [o|o cp w rest out Hw Sg IH|o b rest out Hbad Sg IH]; intros d r E.
  - destruct d; [|discriminate]. simpl in E. subst r. exists 0%nat. rewrite Nat.add_0_r. split; [simpl; lia|constructor].
  - destruct d as [|v d].
    + cbn [app] in E. subst r. exists 0%nat. rewrite Nat.add_0_r. split; [lia|]. cbn [skipn]. constructor; auto.
    + injection E as _ E. destruct (IH d r E) as (j & Hj & S'). exists (length w + j)%nat. rewrite app_length. split; [lia|].
      rewrite Nat.add_assoc. rewrite skipn_app. replace (length w + j - length w)%nat with j by lia. rewrite skipn_all2 by lia. auto.
  - destruct d as [|v d].
    + cbn [app] in E. subst r. exists 0%nat. rewrite Nat.add_0_r. split; [lia|]. cbn [skipn]. constructor; auto.
    + injection E as _ E. destruct (IH d r E) as (j & Hj & S'). exists (S j). cbn [length skipn]. split; [lia|].
      rewrite Nat.add_succ_r. auto.
Qed.

Lemma segments_det : forall o bs out, segments cs o bs out -> forall out', segments cs o bs out' -> out = out'.
Proof.
  induction 1 as [o|o cp w rest out Hw Sg IH|o b rest out Hbad Sg IH]; intros out' S'.
  - inversion S' as [|? cp1 w rest1 out1 Hw S1 Ho E|]; subst; auto. apply app_eq_nil in E as [-> _]. apply standard_length in Hw. simpl in Hw. lia.
  - inversion S' as [|? cp2 w2 rest2 out2 Hw2 S2 Ho Hn|? b rest2 out2 Hbad S2 Ho Hn]; subst.
    + match goal with H : [] = _ ++ _ |- _ => symmetry in H; apply app_eq_nil in H as [-> _] end. apply standard_length in Hw. simpl in Hw. lia.
    + destruct (standard_unique _ _ _ _ _ _ _ Hn Hw2 Hw) as [-> ->]. apply app_inv_head in Hn. subst rest2. f_equal. auto.
    + exfalso. apply (Hbad cp w rest); auto.
  - inversion S' as [|? cp2 w2 rest2 out2 Hw2 S2 Ho Hn|? b2 rest2 out2 Hbad2 S2 Ho Hn]; subst.
    + exfalso. apply (Hbad cp2 w2 rest2); auto.
    + f_equal. auto.
Qed.

Lemma yields_det : forall l e s l', yields buf c e s l -> yields buf c e s l' ->
  Forall (fun v => fst v <> END) l -> Forall (fun v => fst v <> END) l' -> l = l'.
Proof.
  intros l e s l' Y Y' F F'. pose proof (drain_yields buf c e l (max (length l) (length l')) s Y F ltac:(lia)) as D.
  rewrite (drain_yields buf c e l' (max (length l) (length l')) s Y' F' ltac:(lia)) in D. congruence.
Qed.

Lemma lval_suffix hbeg leading k l0 d r : (hbeg <= length buf)%nat -> (k <= hbeg)%nat ->
  tile (hbeg - k) l0 hbeg -> yields buf c hbeg (dreset c (hbeg - k) hbeg) l0 -> l0 = d ++ r -> (leading <= length r)%nat ->
  exists k1, (k1 <= k)%nat /\ (r <> [] -> 1 <= k1)%nat /\ lval hbeg leading k1 = Ok r.
Proof.
  intros Hb Hk T Y E Hl. destruct (chain_yields buf rs cs ts OK B (hbeg - k) k) as (out & Sg & Y0); [lia|].
  replace (hbeg - k + k)%nat with hbeg in Y0 by lia.
  assert (T0 : tile (hbeg - k) (out_of out) (hbeg - k + k)) by (eapply segments_tiles; eauto; lia).
  assert (E0 : l0 = out_of out) by (eapply yields_det; eauto; eapply tiles_no_end; eauto).
  rewrite E0 in E. unfold out_of in E. apply map_eq_app in E as (d0 & r0 & -> & Ed & Er).
  destruct (segments_suffix _ _ _ Sg d0 r0 eq_refl) as (j & Hj & S1).
  unfold slice in Hj, S1. rewrite map_length, firstn_length, skipn_length in Hj. rewrite skipn_map, skipn_firstn_comm, skipn_skipn in S1.
  destruct (chain_yields buf rs cs ts OK B (hbeg - k + j) (k - j)) as (out1 & S2 & Y2); [lia|]. unfold slice in S2. rewrite (Nat.add_comm j) in S1.
  pose proof (segments_det _ _ _ S1 _ S2). subst out1. replace (hbeg - k + j + (k - j))%nat with hbeg in Y2 by lia.
  assert (T2 : tile (hbeg - k + j) (out_of r0) (hbeg - k + j + (k - j))) by (eapply segments_tiles; eauto; lia).
  replace (hbeg - k + j + (k - j))%nat with hbeg in T2 by lia.
  exists (k - j)%nat. split; [lia|]. split.
  - intros Hr. apply tiles_length in T2. unfold out_of in T2. rewrite Er in T2. destruct r; [congruence|]. simpl in T2. lia.
  - unfold lval. replace (hbeg - (k - j))%nat with (hbeg - k + j)%nat by lia. fold (out_of r0) in Y2.
    rewrite (drain_yields buf c hbeg (out_of r0)); auto.
    + cbn [bind]. unfold out_of. rewrite Er. destruct (hbeg - k + j)%nat; cbn [pad_left]; destruct (Nat.ltb_spec (length r) leading); try lia; reflexivity.
    + eapply tiles_no_end; eauto.
    + apply tiles_length in T2. lia.
Qed.

Lemma inv_small l : count_bad l < two32 -> inv l = uint_max - count_bad l.
Proof.
  intros H. unfold inv, uint_max, two32 in *. rewrite (N.mod_small (count_bad l)) by lia. symmetry. apply (N.mod_unique _ 4294967296 1); lia.
Qed.

(** The leading context with its count of bad values: no bad value is cut off. *)
Lemma lead_exact hbeg leading rounds : (hbeg <= length buf)%nat -> (rounds <= hbeg)%nat -> (1 <= rounds <= leading * 4)%nat ->
  N.of_nat leading * 4 < two32 ->
  exists start mi cps, lead_loop buf c hbeg leading rounds 1 0 0 [] = Ok (mi, cps) /\ tile start cps hbeg /\
    (length cps <= leading)%nat /\ (length cps = leading \/ start = 0%nat) /\ (uint_max + two32 - mi) mod two32 = count_bad cps.
Proof.
  intros Hb Hr H1 Hl. destruct (lead_spec hbeg leading rounds Hb Hr) as (k0 & l & mi & cps & E & Hk & EL & -> & -> & M); [lia|].
  destruct (lval_spec hbeg leading k0 Hb ltac:(lia)) as (l0 & start & l' & T & Y & EL' & T' & St & D & Q1 & Q2).
  rewrite EL in EL'. injection EL' as <-.
  destruct (last_n_ok hbeg leading start l T' D) as (start' & T1 & L1 & D1).
  exists start', (inv l), (last_n leading l). split; auto. split; auto. split; auto. split; auto.
  assert (LB : (length l <= leading * 4)%nat).
  { destruct (Nat.le_gt_cases (length l0) leading); [specialize (Q2 H); lia|]. rewrite Q1 by lia. apply tiles_length in T. lia. }
  pose proof (count_bad_le l) as CB. assert (SB : count_bad l < two32) by (unfold two32 in *; lia).
  assert (X : count_bad l = count_bad (last_n leading l)).
  { destruct (Nat.le_gt_cases (length l) leading) as [Hle|Hgt]; [rewrite last_n_all; auto|].
    assert (E0 : l = l0). { apply Q1. destruct (Nat.le_gt_cases leading (length l0)); auto. specialize (Q2 ltac:(lia)). lia. }
    pose proof (last_n_bad leading l) as LE.
    set (n := max leading (adj_good l)).
    assert (An : (adj_good l <= length l)%nat) by (unfold adj_good; rewrite <- (rev_length l); apply good_run_le).
    assert (Ln : length (last_n n l) = n) by (rewrite last_n_length; lia).
    subst l0. destruct (lval_suffix hbeg leading k0 l (firstn (length l - n) l) (last_n n l) Hb ltac:(lia) T Y (last_n_split n l) ltac:(lia)) as (k1 & K1 & K2 & EL1).
    assert (1 <= k1)%nat. { apply K2. intros E0. rewrite E0 in Ln. simpl in Ln. lia. }
    specialize (M k1 _ ltac:(lia) EL1). rewrite adj_last_n in M. replace (Nat.min n (adj_good l)) with (adj_good l) in M by lia.
    pose proof (last_n_bad n l) as LN. rewrite !inv_small in M by lia. assert (BE : count_bad (last_n n l) = count_bad l) by (unfold le2, uint_max, two32 in *; lia).
    destruct (Nat.le_gt_cases (adj_good l) leading).
    - replace n with leading in BE by lia. auto.
    - replace n with (adj_good l) in BE by lia. rewrite bad_last_good in BE by lia. lia. }
  rewrite <- X, inv_small by auto. unfold uint_max, two32 in *. symmetry. apply (N.mod_unique _ 4294967296 1); lia.
Qed.

Lemma standard_width cp w : standard cs cp w -> (length w <= dmax c)%nat.
Proof.
  intros H. assert (D : dmax (bchain ts) = 1%nat) by (clear; induction ts as [|[|k] t IH]; simpl; auto).
  assert (D2 : dmax c = match cs with ASCII => 1 | _ => 4 end%nat).
  { unfold c, text_chain. clear - D. induction rs as [|r l IH]; cbn [rchain dmax]; auto. destruct cs; rewrite D; auto. }
  rewrite D2. pose proof (standard_length _ _ _ H). destruct cs; try lia. destruct H as [? ->]. simpl. lia.
Qed.
Lemma tiles_width o l e : tile o l e -> (e - o <= dmax c * length l)%nat.
Proof.
  induction 1 as [|o cp w out e Hw E T IH|]; cbn [length]; [lia| |].
  - pose proof (standard_width _ _ Hw). lia.
  - pose proof dmax_pos. lia.
Qed.
Lemma tiles_past hend l : forall o e, tile o l e -> (o <= hend)%nat -> Forall (fun v => snd v < hend)%nat l -> (e < hend + dmax c)%nat.
Proof.
  induction l as [|v l IH] using rev_ind; intros o e T Ho F.
  - inversion T; subst. pose proof dmax_pos. lia.
  - apply tiles_app in T as (m & T1 & T2). apply Forall_app in F as [F1 F2]. inversion F2 as [|? ? Fv _]; subst.
    inversion T2 as [|? cp w ? ? Hw E T3|? b v0 ? ? Hb Hv T3]; subst; inversion T3; subst; cbn [snd] in Fv.
    + pose proof (standard_width _ _ Hw). lia.
    + pose proof dmax_pos. lia.
Qed.

Lemma after_spec hbeg hend trailing : (hbeg <= hend <= length buf)%nat -> N.of_nat trailing < two64 ->
  let stop := Nat.min (hend + trailing * dmax c) (length buf) in
  exists hit trail s v fin0 fin, hit_loop buf c hend (stop - hbeg) (dreset c hbeg stop) = Ok (hit, v, s) /\
    trail_loop buf c (stop - hbeg) (N.of_nat trailing) v s = Ok (trail, (fin0, fin)) /\
    tile hbeg (hit ++ trail) fin /\ (length trail <= trailing)%nat /\ (length trail = trailing \/ fin = length buf) /\
    Forall (fun v => snd v < hend)%nat hit /\ Forall (fun v => hend <= snd v)%nat trail /\ (fin <= length buf)%nat.
Proof.
  intros H Ht stop. assert (Hs : (hend <= stop <= length buf)%nat) by (unfold stop; lia).
  destruct (chain_tiles hbeg (stop - hbeg)) as (l & T & Y); [lia|]. replace (hbeg + (stop - hbeg))%nat with stop in * by lia.
  assert (LL : (length l <= stop - hbeg)%nat) by (eapply tiles_length; eauto).
  destruct (hit_loop_spec hend stop (stop - hbeg) l hbeg _ ltac:(lia) T Y LL) as (hit & rest & s' & -> & E & Y' & F1 & F2).
  pose proof (tiles_no_end _ _ _ T) as NE. apply Forall_app in NE as [_ NE]. rewrite app_length in LL.
  pose proof T as T0. apply tiles_app in T0 as (m & T1 & T2).
  destruct trailing as [|t0].
  - assert (rest = []).
    { destruct rest as [|v rest]; auto. exfalso. apply tiles_offsets in T2. inversion T2; subst. inversion F2; subst.
      assert (stop = hend) by (unfold stop; lia). lia. }
    subst rest. cbn [hd] in E. exists hit, [], s', (END, stop), END, stop.
    assert (stop = hend) by (unfold stop; lia). repeat split; auto; try lia.
    destruct (stop - hbeg)%nat; reflexivity.
  - pose proof (trail_loop_spec stop (stop - hbeg) (S t0) rest s' Y' NE ltac:(lia) ltac:(lia) Ht) as TL.
    rewrite <- (firstn_skipn (S t0) rest) in T2. apply tiles_app in T2 as (fin & T3 & T4).
    assert (EF : snd (hd (END, stop) (skipn (S t0) rest)) = fin).
    { destruct (skipn (S t0) rest); cbn [hd]; inversion T4; subst; auto. }
    exists hit, (firstn (S t0) rest), s', (hd (END, stop) rest), (fst (hd (END, stop) (skipn (S t0) rest))), fin.
    split; auto. split; [rewrite TL, <- EF, <- surjective_pairing; auto|]. split; [apply tiles_app; eauto|].
    split; [rewrite firstn_length; lia|]. split.
    { destruct (Nat.le_gt_cases (S t0) (length rest)); [left; rewrite firstn_length; lia|].
      rewrite skipn_all2 in T4 by lia. inversion T4; subst.
      destruct (Nat.le_gt_cases (length buf) (hend + S t0 * dmax c)) as [|G]; [right; unfold stop; lia|left].
      pose proof (tiles_past hend hit hbeg m T1 ltac:(lia) F1) as P. rewrite firstn_all2 in T3 by lia.
      apply tiles_width in T3. assert (stop = hend + S t0 * dmax c)%nat by (unfold stop; lia). rewrite firstn_length. pose proof dmax_pos. nia. }
    split; auto. split; [apply RangeSetProofs.Forall_firstn; auto|]. eapply tiles_len; [exact T3|].
    eapply tiles_len; [exact T1|lia].
Qed.

Lemma rounds_zero hbeg leading : Nat.min hbeg (leading * dmax c) = 0%nat -> hbeg = 0%nat \/ leading = 0%nat.
Proof. pose proof dmax_pos. nia. Qed.

Lemma lead_any hbeg leading : (hbeg <= length buf)%nat ->
  exists start mi cps, lead_loop buf c hbeg leading (Nat.min hbeg (leading * dmax c)) 1 0 0 [] = Ok (mi, cps) /\ tile start cps hbeg /\
    (length cps <= leading)%nat /\ (length cps = leading \/ start = 0%nat) /\
    (hbeg = 0%nat \/ leading = 0%nat -> mi = 0).
Proof.
  intros Hb. destruct (Nat.eq_dec (Nat.min hbeg (leading * dmax c)) 0) as [E|NE].
  - rewrite E. exists hbeg, 0, []. cbn [lead_loop length]. split; auto. split; [constructor|]. split; [lia|]. split; auto.
    apply rounds_zero in E as [->| ->]; auto.
  - destruct (lead_spec hbeg leading (Nat.min hbeg (leading * dmax c)) Hb) as (k0 & l & mi & cps & E & Hk & EL & -> & -> & M); [lia..|].
    destruct (lval_spec hbeg leading k0 Hb ltac:(lia)) as (l0 & start & l' & T & Y & EL' & T' & St & D & Q1 & Q2).
    rewrite EL in EL'. injection EL' as <-.
    destruct (last_n_ok hbeg leading start l T' D) as (start' & T1 & L1 & D1).
    exists start', (inv l), (last_n leading l). repeat split; auto. intros [->| ->]; lia.
Qed.

End Windows.

(** The values of a window: at most [leading] before the hit, the hit's, at most [trailing] after it,
    together covering the buffer from [start] to [fin], and END.  Fewer than asked for are returned
    only where the buffer begins or ends. *)
Theorem window_around_hit rs cs ts buf hbeg hend leading trailing :
  Forall bt_ok ts -> EncProofs.bytes buf -> (hbeg <= hend <= length buf)%nat -> N.of_nat trailing < 2 ^ 64 ->
  exists lead hit trail start fin bad,
    decode buf (text_chain rs cs ts) hbeg hend leading trailing =
      Ok (mkW (lead ++ hit ++ trail ++ [(END, fin)]) (length lead) (length lead + length hit) bad) /\
    tiles rs cs ts buf start lead hbeg /\ tiles rs cs ts buf hbeg (hit ++ trail) fin /\ (fin <= length buf)%nat /\
    Forall (fun v => snd v < hend)%nat hit /\ Forall (fun v => hend <= snd v)%nat trail /\
    (length lead <= leading)%nat /\ (length lead = leading \/ start = 0%nat) /\
    (length trail <= trailing)%nat /\ (length trail = trailing \/ fin = length buf).
Proof.
  intros OK B H Ht. destruct (lead_any rs cs ts buf OK B hbeg leading) as (start & mi & lead & E & T & L1 & L2 & _); [lia|].
  destruct (after_spec rs cs ts buf OK B hbeg hend trailing H Ht) as (hit & trail & s & v & fin0 & fin & E1 & E2 & T2 & A & A2 & F1 & F2 & Hf).
  unfold decode. rewrite E. cbn [bind]. rewrite E1. cbn [bind]. rewrite E2. cbn [bind snd].
  exists lead, hit, trail, start, fin. eexists. split; [reflexivity|]. repeat (split; auto).
Qed.
Print Assumptions window_around_hit.

Example window_example :
  decode [97; 255; 98; 226; 130; 172; 99; 100; 101; 102] (text_chain [] UTF8 []) 6 8 2 1 =
    Ok (mkW [(98, 2%nat); (8364, 3%nat); (99, 6%nat); (100, 7%nat); (101, 8%nat); (END, 9%nat)]%Z 2 4 0).
Proof. reflexivity. Qed.

(** What lg_hit_context returns. *)
Theorem hit_context_text rs cs ts buf hbeg hend size repl :
  Forall bt_ok ts -> EncProofs.bytes buf -> (hbeg <= hend <= length buf)%nat -> N.of_nat size < 2 ^ 64 ->
  exists lead hit trail start fin bad,
    let enc := flat_map (fun v : dval => cp_to_utf8 (if (fst v <=? 0)%Z then repl else fst v)) in
    hit_context buf (text_chain rs cs ts) hbeg hend size repl =
      Ok (mkH (enc lead ++ enc hit ++ enc trail ++ [0]) (start, fin)
              (length (enc lead), length (enc lead) + length (enc hit))%nat bad) /\
    tiles rs cs ts buf start lead hbeg /\ tiles rs cs ts buf hbeg (hit ++ trail) fin /\ (fin <= length buf)%nat /\
    Forall (fun v => snd v < hend)%nat hit /\ Forall (fun v => hend <= snd v)%nat trail /\
    (length lead <= size)%nat /\ (length lead = size \/ start = 0%nat) /\
    (length trail <= size)%nat /\ (length trail = size \/ fin = length buf).
Proof.
  intros OK B H Ht. destruct (window_around_hit rs cs ts buf hbeg hend size size OK B H Ht)
    as (lead & hit & trail & start & fin & bad & E & T1 & T2 & R).
  exists lead, hit, trail, start, fin, bad. split; [|tauto].
  unfold hit_context. rewrite E. cbn [bind w_cps w_beg w_end w_bad].
  assert (G0 : exists v, get (lead ++ hit ++ trail ++ [(END, fin)]) 0 = Ok (v, start)).
  { unfold get. destruct lead as [|v lead].
    - inversion T1; subst. destruct hit as [|v hit]; [destruct trail as [|v trail]|]; cbn [app nth_error] in *; inversion T2; subst; eauto.
    - cbn [app nth_error]. inversion T1; subst; eauto. }
  destruct G0 as [v0 G0]. rewrite G0. cbn [bind].
  assert (GL : get (lead ++ hit ++ trail ++ [(END, fin)]) (length (lead ++ hit ++ trail ++ [(END, fin)]) - 1) = Ok (END, fin)).
  { unfold get. rewrite !app_assoc, app_length. cbn [length]. rewrite Nat.add_sub, nth_error_app2, Nat.sub_diag by lia. reflexivity. }
  rewrite GL. cbn [bind]. unfold to_utf8.
  rewrite firstn_app, firstn_all, Nat.sub_diag. cbn [firstn]. rewrite app_nil_r.
  rewrite skipn_app, skipn_all, Nat.sub_diag. cbn [skipn app]. replace (length lead + length hit - length lead)%nat with (length hit) by lia.
  rewrite firstn_app, firstn_all, Nat.sub_diag. cbn [firstn]. rewrite app_nil_r.
  assert (SK : skipn (length lead + length hit) (lead ++ hit ++ trail ++ [(END, fin)]) = trail ++ [(END, fin)]).
  { rewrite app_assoc, <- app_length, skipn_app, skipn_all, Nat.sub_diag. reflexivity. }
  rewrite SK. rewrite !app_length. cbn [length].
  replace (length lead + (length hit + (length trail + 1)) - 1 - (length lead + length hit))%nat with (length trail) by lia.
  rewrite firstn_app, firstn_all, Nat.sub_diag. cbn [firstn]. rewrite app_nil_r. reflexivity.
Qed.
Print Assumptions hit_context_text.

(** * C25 *)

(** The number of bad values of a window is reported exactly when the hit does not begin the
    buffer and some leading context is asked for... *)
Theorem bad_count_with_context_partial rs cs ts buf hbeg hend leading trailing w :
  Forall bt_ok ts -> EncProofs.bytes buf -> (hbeg <= hend <= length buf)%nat -> N.of_nat trailing < 2 ^ 64 ->
  (0 < hbeg)%nat -> (0 < leading)%nat -> N.of_nat leading * 4 < 2 ^ 32 ->
  decode buf (text_chain rs cs ts) hbeg hend leading trailing = Ok w ->
  w.(w_bad) = N.of_nat (length (filter (fun v => fst v <? 0)%Z (removelast w.(w_cps)))) mod 2 ^ 32.
Proof.
  intros OK B H Ht Hb Hl Hl2. pose proof (dmax_pos rs cs ts) as DM. set (r := Nat.min hbeg (leading * dmax (text_chain rs cs ts))).
  destruct (lead_exact rs cs ts buf OK B hbeg leading r) as (start & mi & lead & E & T & L1 & L2 & X); [lia|unfold r; lia|unfold r; nia|exact Hl2|].
  destruct (after_spec rs cs ts buf OK B hbeg hend trailing H Ht) as (hit & trail & s & v & fin0 & fin & E1 & E2 & T2 & A & A2 & F1 & F2 & Hf).
  unfold decode. fold r. rewrite E. cbn [bind]. rewrite E1. cbn [bind]. rewrite E2. cbn [bind snd].
  intros HW. injection HW as <-. cbn [w_bad w_cps]. rewrite !app_assoc, removelast_last. rewrite X.
  fold (count_bad ((lead ++ hit) ++ trail)). rewrite !count_bad_app. change (2 ^ 32) with two32. f_equal; lia.
Qed.
Print Assumptions bad_count_with_context_partial.

(** ... and otherwise one less than it, modulo 2^32. *)
Theorem bad_count_without_context_refuted rs cs ts buf hbeg hend leading trailing w :
  Forall bt_ok ts -> EncProofs.bytes buf -> (hbeg <= hend <= length buf)%nat -> N.of_nat trailing < 2 ^ 64 ->
  hbeg = 0%nat \/ leading = 0%nat ->
  decode buf (text_chain rs cs ts) hbeg hend leading trailing = Ok w ->
  w.(w_bad) = (N.of_nat (length (filter (fun v => fst v <? 0)%Z (removelast w.(w_cps)))) + (2 ^ 32 - 1)) mod 2 ^ 32.
Proof.
  intros OK B H Ht Hz. destruct (lead_any rs cs ts buf OK B hbeg leading) as (start & mi & lead & E & T & L1 & L2 & X); [lia|].
  specialize (X Hz). subst mi.
  assert (lead = []).
  { destruct Hz as [->| ->]; [apply tiles_length in T; destruct lead; auto; simpl in T; lia|destruct lead; auto; simpl in L1; lia]. }
  subst lead.
  destruct (after_spec rs cs ts buf OK B hbeg hend trailing H Ht) as (hit & trail & s & v & fin0 & fin & E1 & E2 & T2 & A & A2 & F1 & F2 & Hf).
  unfold decode. rewrite E. cbn [bind]. rewrite E1. cbn [bind]. rewrite E2. cbn [bind snd].
  intros HW. injection HW as <-. cbn [w_bad w_cps app]. rewrite !app_assoc, removelast_last.
  fold (count_bad (hit ++ trail)). rewrite !count_bad_app. f_equal.
  change ((uint_max + two32 - 0) mod two32) with 4294967295. change (2 ^ 32 - 1) with 4294967295. lia.
Qed.
Print Assumptions bad_count_without_context_refuted.

Example bad_count_wrong :
  decode [97; 98] (text_chain [] ASCII []) 0 1 3 1 = Ok (mkW [(97, 0%nat); (98, 1%nat); (END, 2%nat)]%Z 0 1 4294967295) /\
  decode [255; 98] (text_chain [] ASCII []) 0 1 3 1 = Ok (mkW [(-256, 0%nat); (98, 1%nat); (END, 2%nat)]%Z 0 1 0).
Proof. split; reflexivity. Qed.
