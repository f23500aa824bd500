From Verif Require Import Base UtfModel UtfProofs Thm_Utf EncModel EncProofs EncUtf Thm_Enc DecModel.
Open Scope N_scope.

(** * What a decoder yields: the values of [l], then END at [e] for ever. *)
Section Yields.
Variable buf : list N.

Definition steps (c : chain) (e : nat) (R : dstate -> list dval -> Prop) : Prop :=
  forall s l, R s l -> exists s', dnext buf c s = Ok (hd (END, e) l, s') /\ R s' (tl l).
Definition yields (c : chain) (e : nat) (s : dstate) (l : list dval) : Prop :=
  exists R, R s l /\ steps c e R.

Lemma yields_step c e s l : yields c e s l -> exists s', dnext buf c s = Ok (hd (END, e) l, s') /\ yields c e s' (tl l).
Proof. intros (R & H & HR). destruct (HR _ _ H) as (s' & E & H'). exists s'. split; auto. exists R. auto. Qed.

(** Bytes with their positions. *)
Fixpoint entries (o : nat) (bs : list N) : list dval :=
  match bs with [] => [] | b :: t => (Z.of_N b, o) :: entries (S o) t end.

Lemma entries_length o bs : length (entries o bs) = length bs.
Proof. revert o. induction bs; simpl; auto. Qed.
Lemma entries_skipn k : forall o bs, skipn k (entries o bs) = entries (o + k) (skipn k bs).
Proof.
  induction k as [|k IH]; intros o bs; simpl; [rewrite Nat.add_0_r; auto|]. destruct bs; simpl; auto.
  rewrite IH. f_equal. lia.
Qed.
Lemma entries_firstn k : forall o bs, firstn k (entries o bs) = entries o (firstn k bs).
Proof. induction k as [|k IH]; intros o bs; simpl; auto. destruct bs; simpl; auto. rewrite IH. auto. Qed.

Lemma source_yields cur n : (cur + n <= length buf)%nat ->
  yields CSource (cur + n) (SSrc cur (cur + n)) (entries cur (firstn n (skipn cur buf))).
Proof.
  intros H. set (e := (cur + n)%nat) in *.
  exists (fun s l => exists i, (i <= e)%nat /\ s = SSrc i e /\ l = entries i (firstn (e - i) (skipn i buf))). split.
  - exists cur. split; [lia|]. split; auto. do 2 f_equal. lia.
  - intros s l (i & Hi & -> & ->). cbn [dnext]. destruct (Nat.eqb_spec i e) as [->|Hne].
    + rewrite Nat.sub_diag. cbn [firstn entries hd tl]. exists (SSrc e e). split; auto. exists e. rewrite Nat.sub_diag. auto.
    + destruct (nth_error buf i) as [b|] eqn:Eb; [|apply nth_error_None in Eb; lia].
      unfold get. rewrite Eb. cbn [bind]. rewrite (RangeSetProofs.skipn_cons _ _ _ Eb).
      replace (e - i)%nat with (S (e - S i)) by lia. cbn [firstn entries hd tl].
      exists (SSrc (S i) e). split; auto. exists (S i). split; [lia|auto].
Qed.

(** Decorators that change values one by one. *)
Lemma map_yields c c' e s l (g : Z -> Z) : g END = END ->
  (forall s0 v o s1, dnext buf c s0 = Ok ((v, o), s1) -> (v < 256)%Z -> dnext buf c' s0 = Ok ((g v, o), s1)) ->
  Forall (fun v => fst v < 256)%Z l ->
  yields c e s l -> yields c' e s (map (fun v => (g (fst v), snd v)) l).
Proof.
  intros Hg Hn Hl Hy. exists (fun s l' => exists l, Forall (fun v => fst v < 256)%Z l /\ yields c e s l /\ l' = map (fun v => (g (fst v), snd v)) l).
  split; [exists l; auto|]. clear s l Hl Hy. intros s l' (l & Hl & Hy & ->). destruct (yields_step _ _ _ _ Hy) as (s' & E & Hy').
  exists s'. destruct l as [|[v o] l]; cbn [hd tl map fst snd] in *.
  - split; [rewrite (Hn s END e s' E); [rewrite Hg; auto|unfold END; lia]|exists []; auto].
  - inversion Hl; subst. split; [apply Hn; auto|]. exists l; auto.
Qed.

Lemma map_yields' c c' e s l (g : Z -> Z) : g END = END ->
  (forall s0 v o s1, dnext buf c s0 = Ok ((v, o), s1) -> dnext buf c' s0 = Ok ((g v, o), s1)) ->
  yields c e s l -> yields c' e s (map (fun v => (g (fst v), snd v)) l).
Proof.
  intros Hg Hn Hy. exists (fun s l' => exists l, yields c e s l /\ l' = map (fun v => (g (fst v), snd v)) l).
  split; [exists l; auto|]. clear s l Hy. intros s l' (l & Hy & ->). destruct (yields_step _ _ _ _ Hy) as (s' & E & Hy').
  exists s'. destruct l as [|[v o] l]; cbn [hd tl map fst snd] in *.
  - split; [rewrite (Hn s END e s' E); rewrite Hg; auto|exists []; auto].
  - split; [apply Hn; auto|]. exists l; auto.
Qed.

(** * The byte transformations *)
Inductive btrans := TOce | TXor (key : N).

(** Decoder for a list of byte transformations, decoderfactory.cpp:55-67 (the last of the list
    is the first to be undone). *)
Fixpoint bchain (ts : list btrans) : chain :=
  match ts with [] => CSource | TOce :: t => COce (bchain t) | TXor k :: t => CXor k (bchain t) end.

Definition undo1 (t : btrans) (b : N) : N :=
  match t with TOce => nth (N.to_nat b) unOCE 0 | TXor k => N.lxor b k end.
Fixpoint undo (ts : list btrans) (b : N) : N := match ts with [] => b | t :: r => undo1 t (undo r b) end.

Definition bt_ok (t : btrans) : Prop := match t with TOce => True | TXor k => k < 256 end.

Lemma unoce_lt b : b < 256 -> nth (N.to_nat b) unOCE 0 < 256.
Proof.
  intros H. assert (F : Forall (fun x => x < 256) unOCE) by (repeat (constructor; [reflexivity|]); constructor).
  rewrite Forall_forall in F. apply F. apply nth_In. change (length unOCE) with 256%nat. lia.
Qed.

Lemma undo_lt ts b : Forall bt_ok ts -> b < 256 -> undo ts b < 256.
Proof.
  induction 1 as [|t ts Ht Hts IH]; simpl; auto. intros Hb. destruct t as [|k]; simpl; [apply unoce_lt; auto|].
  apply xor_byte_lt; auto.
Qed.

Definition oce_fun (n : Z) : Z := if (n <? 0)%Z then n else Z.of_N (nth (Z.to_nat n) unOCE 0).

Definition slice (beg n : nat) : list N := firstn n (skipn beg buf).

Lemma entries_map o bs (f : N -> N) (g : Z -> Z) : (forall b, In b bs -> g (Z.of_N b) = Z.of_N (f b)) ->
  map (fun v => (g (fst v), snd v)) (entries o bs) = entries o (map f bs).
Proof.
  revert o. induction bs as [|b bs IH]; intros o H; simpl; auto. rewrite H by (simpl; auto). rewrite IH by (intros; apply H; simpl; auto). auto.
Qed.

Lemma entries_lt o bs : EncProofs.bytes bs -> Forall (fun v => fst v < 256)%Z (entries o bs).
Proof. intros H. revert o. induction H; intros o; simpl; constructor; auto. simpl. lia. Qed.

Lemma slice_bytes beg n : EncProofs.bytes buf -> EncProofs.bytes (slice beg n).
Proof. intros H. unfold slice. apply RangeSetProofs.Forall_firstn, RangeSetProofs.Forall_skipn. auto. Qed.

Lemma bchain_yields ts : Forall bt_ok ts -> EncProofs.bytes buf -> forall beg n, (beg + n <= length buf)%nat ->
  yields (bchain ts) (beg + n) (dreset (bchain ts) beg (beg + n)) (entries beg (map (undo ts) (slice beg n))).
Proof.
  intros OK B beg n Hn. induction OK as [|t ts Ht Hts IH]; cbn [bchain].
  - rewrite map_ext with (g := fun x => x), map_id by reflexivity. apply source_yields. auto.
  - assert (BB : EncProofs.bytes (map (undo ts) (slice beg n))).
    { apply Forall_map. eapply Forall_impl; [|apply (slice_bytes beg n B)]. intros. apply undo_lt; auto. }
    assert (EM : map (undo (t :: ts)) (slice beg n) = map (undo1 t) (map (undo ts) (slice beg n))) by (rewrite map_map; reflexivity).
    rewrite EM. destruct t as [|k]; cbn [dreset].
    + rewrite <- (entries_map beg _ (undo1 TOce) oce_fun).
      2:{ intros b Hb. unfold oce_fun. destruct (Z.ltb_spec (Z.of_N b) 0); [lia|]. unfold undo1. replace (Z.to_nat (Z.of_N b)) with (N.to_nat b) by lia. reflexivity. }
      apply (map_yields (bchain ts)); auto; [|apply entries_lt; auto].
      intros s0 v o s1 E Hv. cbn [dnext]. rewrite E. cbn [bind]. unfold oce_val, oce_fun. destruct (Z.ltb_spec v 0); auto.
      destruct (Z.ltb_spec v 256); [|lia]. unfold get. rewrite (nth_error_nth' unOCE 0) by (change (length unOCE) with 256%nat; lia). reflexivity.
    + rewrite <- (entries_map beg _ (undo1 (TXor k)) (xor_val k)).
      2:{ intros b Hb. unfold xor_val. destruct (Z.ltb_spec (Z.of_N b) 0); [lia|].
          pose proof (proj1 (Forall_forall _ _) BB b Hb) as BBb. cbv beta in BBb. destruct (Z.ltb_spec (Z.of_N b) 256); [|lia]. rewrite N2Z.id. reflexivity. }
      apply (map_yields' (bchain ts)); auto.
      intros s0 v o s1 E. cbn [dnext]. rewrite E. reflexivity.
Qed.

(** * Text *)

(** What decoding is to do: split the bytes into encoded characters and single bad bytes. *)
Inductive segments (cs : charset) : nat -> list N -> list dval -> Prop :=
| SegNil o : segments cs o [] []
| SegChar o cp w rest out : standard cs cp w -> segments cs (o + length w) rest out ->
    segments cs o (w ++ rest) ((cp, o) :: out)
| SegBad o b rest out : (forall cp w rest', b :: rest = w ++ rest' -> ~ standard cs cp w) ->
    segments cs (S o) rest out -> segments cs o (b :: rest) ((- Z.of_N b - 1, o)%Z :: out).

Lemma standard_length cs cp w : standard cs cp w -> (1 <= length w <= 4)%nat.
Proof.
  intros H. apply base_std in H as [<- Hn]. pose proof (proj2 (base_bytes cs cp)).
  destruct (base_write cs cp); [congruence|]. destruct cs; simpl in *; lia.
Qed.

Lemma utf_decode_exact cs l n cp : cs <> ASCII -> EncProofs.bytes l ->
  (utf_decode cs l = Some (n, cp) <-> exists w rest, l = w ++ rest /\ n = length w /\ standard cs (Z.of_N cp) w).
Proof.
  intros Hc B. destruct cs as [| |le|le]; [congruence| | |]; cbn [utf_decode standard].
  - apply utf8_decodes_exactly; auto. - apply utf16_decodes_exactly; auto. - apply utf32_decodes_exactly; auto.
Qed.

Fixpoint segs (cs : charset) (n : nat) (o : nat) (bs : list N) : list dval :=
  match n, bs with
  | S n, b :: t =>
      match utf_decode cs (firstn 4 bs) with
      | None => (badv (Z.of_N b), o) :: segs cs n (S o) t
      | Some (k, cp) => (Z.of_N cp, o) :: segs cs n (o + k) (skipn k bs)
      end
  | _, _ => []
  end.

Lemma standard_nonneg cs cp w : standard cs cp w -> (0 <= cp)%Z.
Proof.
  destruct cs; cbn [standard]; intros H; [lia|apply u8_spec in H; tauto|apply u16_spec in H; tauto|apply u32_spec in H; tauto].
Qed.

Lemma firstn_prefix {A} k (w rest : list A) : (length w <= k)%nat -> firstn k (w ++ rest) = w ++ firstn (k - length w) rest.
Proof. intros H. rewrite firstn_app. rewrite (firstn_all2 w) by auto. reflexivity. Qed.

Lemma segs_spec cs : cs <> ASCII -> forall n o bs, EncProofs.bytes bs -> (length bs <= n)%nat -> segments cs o bs (segs cs n o bs).
Proof.
  intros Hc. induction n as [|n IH]; intros o bs B Hn; cbn [segs].
  - destruct bs; [constructor|simpl in Hn; lia].
  - destruct bs as [|b t]; [constructor|].
    assert (B4 : EncProofs.bytes (firstn 4 (b :: t))) by (apply RangeSetProofs.Forall_firstn; auto).
    destruct (utf_decode cs (firstn 4 (b :: t))) as [[k cp]|] eqn:E.
    + apply utf_decode_exact in E; auto. destruct E as (w & rest & E & -> & H).
      assert (Ew : b :: t = w ++ skipn (length w) (b :: t)).
      { rewrite <- (firstn_skipn (length w) (b :: t)) at 1. f_equal. pose proof (standard_length _ _ _ H).
        apply (f_equal (firstn (length w))) in E. rewrite firstn_firstn in E. replace (Nat.min (length w) 4) with (length w) in E by lia.
        rewrite E. rewrite firstn_app, firstn_all, Nat.sub_diag. cbn [firstn]. apply app_nil_r. }
      pose proof (standard_length _ _ _ H). rewrite Ew at 1. constructor; auto. apply IH.
      * apply RangeSetProofs.Forall_skipn. auto.
      * rewrite skipn_length. cbn [length] in *. lia.
    + apply SegBad.
      * intros cp w rest' Ew H. pose proof (standard_nonneg _ _ _ H) as Hp. pose proof (standard_length _ _ _ H).
        assert (utf_decode cs (firstn 4 (b :: t)) = Some (length w, Z.to_N cp)); [|congruence].
        apply utf_decode_exact; auto. exists w, (firstn (4 - length w) rest'). rewrite Z2N.id by auto. split; [|auto].
        rewrite Ew. apply firstn_prefix. lia.
      * apply IH; [inversion B; auto|simpl in Hn; lia].
Qed.

Lemma front_bytes_entries o bs j e : EncProofs.bytes bs -> front_bytes (entries o bs ++ repeat (END, e) j) = bs.
Proof.
  intros B. revert o. induction B as [|b bs Hb B IH]; intros o; cbn [entries app front_bytes].
  - destruct j; reflexivity.
  - destruct (Z.ltb_spec (Z.of_N b) 0); [lia|]. destruct (Z.ltb_spec 255 (Z.of_N b)); [lia|]. cbn [orb]. rewrite N2Z.id, IH. auto.
Qed.

Lemma fill_spec c e : forall n q j s l o bs, yields c e s l -> (0 < j -> l = [])%nat -> q ++ l = entries o bs ->
  (length q + j <= 4)%nat -> (4 <= n + length q + j)%nat ->
  exists q' j' s' l', fill_queue (dnext buf c) n (q ++ repeat (END, e) j) s = Ok (q' ++ repeat (END, e) j', s') /\
    yields c e s' l' /\ (0 < j' -> l' = [])%nat /\ q' ++ l' = entries o bs /\ (length q' + j' = 4)%nat.
Proof.
  induction n as [|n IH]; intros q j s l o bs Y J Q L1 L2; cbn [fill_queue]; rewrite app_length, repeat_length.
  - destruct (Nat.ltb_spec (length q + j) 4); [lia|]. exists q, j, s, l. repeat split; auto. lia.
  - destruct (Nat.ltb_spec (length q + j) 4).
    + destruct (yields_step _ _ _ _ Y) as (s' & E & Y'). rewrite E. cbn [bind].
      destruct l as [|v l]; cbn [hd tl] in *.
      * replace ((q ++ repeat (END, e) j) ++ [(END, e)]) with (q ++ repeat (END, e) (S j)).
        2:{ rewrite <- app_assoc. f_equal. replace (S j) with (j + 1)%nat by lia. rewrite repeat_app. auto. }
        apply (IH q (S j) s' [] o bs); auto; lia.
      * assert (j = O) by (destruct j; auto; specialize (J ltac:(lia)); discriminate). subst j. cbn [repeat].
        rewrite app_nil_r. replace (q ++ [v]) with ((q ++ [v]) ++ repeat (END, e) 0) by apply app_nil_r.
        apply (IH (q ++ [v]) O s' l o bs); auto; try (rewrite app_length; simpl; lia); [lia|].
        rewrite <- app_assoc. auto.
    + exists q, j, s, l. repeat split; auto. lia.
Qed.

Lemma app_entries q l o bs : q ++ l = entries o bs -> q = entries o (firstn (length q) bs) /\ l = entries (o + length q) (skipn (length q) bs).
Proof.
  intros H. split.
  - rewrite <- entries_firstn, <- H, firstn_app, firstn_all, Nat.sub_diag. cbn [firstn]. symmetry. apply app_nil_r.
  - rewrite <- entries_skipn, <- H, skipn_app, skipn_all, Nat.sub_diag. auto.
Qed.

Lemma text_yields cs c e s o bs : cs <> ASCII -> EncProofs.bytes bs -> yields c e s (entries o bs) ->
  yields (CText cs c) e (SQueue [] s) (segs cs (length bs) o bs).
Proof.
  intros Hc B Y.
  exists (fun st out => exists q j s l o bs n, st = SQueue (q ++ repeat (END, e) j) s /\ yields c e s l /\ (0 < j -> l = [])%nat /\
    q ++ l = entries o bs /\ (length q + j <= 4)%nat /\ EncProofs.bytes bs /\ (length bs <= n)%nat /\ out = segs cs n o bs).
  split.
  { exists [], O, s, (entries o bs), o, bs, (length bs). repeat split; auto; simpl; try lia. }
  clear s o bs B Y. intros st out (q & j & s & l & o & bs & n & -> & Y & J & Q & L & B & Hn & ->).
  destruct (fill_spec c e 4 q j s l o bs Y J Q L ltac:(lia)) as (q' & j' & s' & l' & E & Y' & J' & Q' & L').
  assert (ST : forall A (a b : A), match cs with ASCII => a | _ => b end = b) by (intros; destruct cs; congruence).
  cbn [dnext]. rewrite ST. rewrite E. cbn [bind].
  destruct (app_entries _ _ _ _ Q') as [Eq El].
  destruct bs as [|b t].
  - cbn [entries] in Q'. apply app_eq_nil in Q' as [-> ->]. cbn [app length] in *. simpl in L'. subst j'. cbn [repeat take_value front_bytes].
    assert (HE : (END <? 0)%Z || (255 <? END)%Z = true) by reflexivity. rewrite HE. cbn [bind].
    exists (SQueue (repeat (END, e) 3) s'). split; [destruct n; reflexivity|]. exists [], 3%nat, s', [], o, [], O. sp; auto; try (simpl; lia). destruct n; reflexivity.
  - destruct n as [|n]; [simpl in Hn; lia|].
    assert (Hq : (1 <= length q')%nat).
    { destruct q' as [|x q']; [|simpl; lia]. cbn [app length] in *. rewrite J' in Q' by lia. discriminate. }
    assert (F4 : firstn (length q') (b :: t) = firstn 4 (b :: t)).
    { destruct (Nat.eq_dec j' 0) as [->|Hj].
      - f_equal. lia.
      - rewrite (J' ltac:(lia)) in Q'. rewrite app_nil_r in Q'. assert (LE : length q' = length (b :: t)) by (rewrite Q', entries_length; auto).
        rewrite !firstn_all2; auto; lia. }
    assert (B' : EncProofs.bytes (firstn (length q') (b :: t))) by (apply RangeSetProofs.Forall_firstn; auto).
    assert (FB : front_bytes (q' ++ repeat (END, e) j') = firstn 4 (b :: t)).
    { rewrite Eq at 1. rewrite front_bytes_entries by auto. auto. }
    destruct q' as [|[v o'] q'']; [simpl in Hq; lia|]. cbn [length firstn entries] in Eq. injection Eq as Ev Eo Eq''.
    cbn [app]. unfold take_value. cbn [app] in FB. rewrite FB.
    assert (NE : forall A (x y : A), match firstn 4 (b :: t) with [] => x | _ :: _ => y end = y) by reflexivity. rewrite NE.
    cbn [segs]. destruct (utf_decode cs (firstn 4 (b :: t))) as [[k cp]|] eqn:Ed.
    + apply utf_decode_exact in Ed; [|auto|apply RangeSetProofs.Forall_firstn; auto]. destruct Ed as (w & rest & Ed & -> & Hw).
      pose proof (standard_length _ _ _ Hw).
      assert (Lw : (length w <= length ((v, o') :: q''))%nat).
      { assert (length w <= length (firstn 4 (b :: t)))%nat by (rewrite Ed, app_length; lia). rewrite <- F4, firstn_length in *. lia. }
      change ((v, o') :: q'' ++ repeat (END, e) j') with (((v, o') :: q'') ++ repeat (END, e) j').
      set (qq := (v, o') :: q'') in *.
      rewrite app_length, repeat_length. destruct (Nat.ltb_spec (length qq + j') (length w)); [lia|]. cbn [bind hd tl].
      exists (SQueue (skipn (length w) (qq ++ repeat (END, e) j')) s'). split; [subst o'; reflexivity|].
      rewrite skipn_app. replace (length w - length qq)%nat with O by lia. cbn [skipn].
      exists (skipn (length w) qq), j', s', l', (o + length w)%nat, (skipn (length w) (b :: t)), n.
      assert (QQ : skipn (length w) qq ++ l' = entries (o + length w) (skipn (length w) (b :: t))).
      { rewrite <- entries_skipn, <- Q'. rewrite skipn_app. replace (length w - length qq)%nat with O by lia. auto. }
      split; [auto|]. split; [auto|]. split; [auto|]. split; [auto|]. split; [rewrite skipn_length; lia|].
      split; [apply RangeSetProofs.Forall_skipn; auto|]. split; [rewrite skipn_length; cbn [length] in *; lia|auto].
    + cbn [bind hd tl]. exists (SQueue (q'' ++ repeat (END, e) j') s'). subst v o'. split; [reflexivity|].
      cbn [app] in Q'. injection Q' as Q'. exists q'', j', s', l', (S o), t, n.
      split; [auto|]. split; [auto|]. split; [auto|]. split; [auto|]. split; [simpl in L'; lia|]. split; [inversion B; auto|].
      split; [simpl in Hn; lia|auto].
Qed.

Lemma ascii_segments o bs : EncProofs.bytes bs -> segments ASCII o bs (map (fun v => (ascii_val (fst v), snd v)) (entries o bs)).
Proof.
  intros B. revert o. induction B as [|b bs Hb B IH]; intros o; cbn [entries map fst snd]; [constructor|].
  unfold ascii_val. destruct (Z.leb_spec 128 (Z.of_N b)).
  - apply SegBad; auto. intros cp w rest' E (Hc & ->). injection E as E _. lia.
  - change (b :: bs) with ([b] ++ bs). apply SegChar; [split; [lia|rewrite N2Z.id; auto]|]. replace (o + length [b])%nat with (S o) by (simpl; lia). apply IH.
Qed.

(** * Whole chains *)
Fixpoint rchain (rs : list N) (c : chain) : chain := match rs with [] => c | r :: t => CRot r (rchain t c) end.

(** The decoder DecoderFactory assembles, decoderfactory.cpp:43-107. *)
Definition text_chain (rs : list N) (cs : charset) (ts : list btrans) : chain := rchain rs (CText cs (bchain ts)).

Fixpoint unrots (rs : list N) (cp : Z) : Z := match rs with [] => cp | r :: t => rot_val r (unrots t cp) end.

Lemma dreset_rchain rs c beg e : dreset (rchain rs c) beg e = dreset c beg e.
Proof. induction rs; simpl; auto. Qed.

Lemma rchain_yields rs c e s l : yields c e s l -> yields (rchain rs c) e s (map (fun v => (unrots rs (fst v), snd v)) l).
Proof.
  intros Y. induction rs as [|r rs IH]; cbn [rchain unrots].
  - rewrite map_ext with (g := fun x => x), map_id; auto. intros []; auto.
  - replace (map (fun v => (rot_val r (unrots rs (fst v)), snd v)) l)
      with (map (fun v => (rot_val r (fst v), snd v)) (map (fun v => (unrots rs (fst v), snd v)) l)) by (rewrite map_map; reflexivity).
    apply (map_yields' (rchain rs c)); auto. intros s0 v o s1 E. cbn [dnext]. rewrite E. reflexivity.
Qed.

Lemma chain_yields rs cs ts : Forall bt_ok ts -> EncProofs.bytes buf -> forall beg n, (beg + n <= length buf)%nat ->
  exists out, segments cs beg (map (undo ts) (slice beg n)) out /\
    yields (text_chain rs cs ts) (beg + n) (dreset (text_chain rs cs ts) beg (beg + n)) (map (fun v => (unrots rs (fst v), snd v)) out).
Proof.
  intros OK B beg n Hn. unfold text_chain. rewrite dreset_rchain.
  assert (BB : EncProofs.bytes (map (undo ts) (slice beg n))).
  { apply Forall_map. eapply Forall_impl; [|apply (slice_bytes beg n B)]. intros. apply undo_lt; auto. }
  pose proof (bchain_yields ts OK B beg n Hn) as Y.
  assert (D : {cs = ASCII} + {cs <> ASCII}) by (destruct cs; [left; auto|right; discriminate..]). destruct D as [->|Hc].
  - exists (map (fun v => (ascii_val (fst v), snd v)) (entries beg (map (undo ts) (slice beg n)))). split; [apply ascii_segments; auto|].
    apply rchain_yields. cbn [dreset]. apply (map_yields' (bchain ts)); auto. intros s0 v o s1 E. cbn [dnext]. rewrite E. reflexivity.
  - exists (segs cs (length (map (undo ts) (slice beg n))) beg (map (undo ts) (slice beg n))). split; [apply segs_spec; auto|].
    apply rchain_yields. replace (dreset (CText cs (bchain ts)) beg (beg + n)) with (SQueue [] (dreset (bchain ts) beg (beg + n))) by (destruct cs; [congruence|reflexivity..]).
    apply text_yields; auto.
Qed.

Lemma drain_yields c e : forall l n s, yields c e s l -> Forall (fun v => fst v <> END) l -> (length l <= n)%nat -> drain buf c n s = Ok l.
Proof.
  induction l as [|v l IH]; intros n s Y F Hn; destruct (yields_step _ _ _ _ Y) as (s' & E & Y'); cbn [hd tl] in *.
  - destruct n; cbn [drain]; rewrite E; cbn [bind fst]; rewrite Z.eqb_refl; auto.
  - destruct n as [|n]; [simpl in Hn; lia|]. cbn [drain]. rewrite E. cbn [bind].
    inversion F; subst. destruct (Z.eqb_spec (fst v) END); [congruence|]. rewrite (IH n s'); auto. simpl in Hn; lia.
Qed.
End Yields.

Lemma segments_length cs o bs out : segments cs o bs out -> (length out <= length bs)%nat.
Proof.
  induction 1; simpl; try lia. rewrite app_length. pose proof (standard_length _ _ _ H). lia.
Qed.

Lemma rot_val_range r cp : (END <> cp)%Z -> rot_val r cp <> END.
Proof.
  intros H. unfold rot_val, unrot. 
  destruct ((65 <=? cp)%Z && (cp <=? 90)%Z); [unfold END; lia|]. destruct ((97 <=? cp)%Z && (cp <=? 122)%Z); [unfold END; lia|auto].
Qed.
Lemma unrots_range rs cp : cp <> END -> unrots rs cp <> END.
Proof. intros H. induction rs as [|r rs IH]; simpl; auto. apply rot_val_range. auto. Qed.

Lemma segments_no_end cs o bs out : EncProofs.bytes bs -> segments cs o bs out -> Forall (fun v => fst v <> END) out.
Proof.
  intros B S. induction S; constructor; auto; cbn [fst].
  - pose proof (standard_nonneg _ _ _ H). unfold END. lia.
  - apply IHS. apply Forall_app in B. tauto.
  - inversion B; subst. unfold END. lia.
  - apply IHS. inversion B; auto.
Qed.
