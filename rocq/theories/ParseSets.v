(** The sets made while parsing are well formed and made without undefined behaviour. *)
From Verif Require Import Base RangeSetModel RangeSetProofs ByteSetModel ByteSetProofs UtfModel EscModel PatModel EncModel EncProofs BuildEnc ParseModel.
Open Scope Z_scope.

(** Success with [P], or an exception *)
Definition safe {A} (P : A -> Prop) (r : res A) : Prop :=
  match r with Ok a => P a | Throw => True | _ => False end.

Lemma safe_bind {A B} (P : A -> Prop) (Q : B -> Prop) r f : safe P r -> (forall a, P a -> safe Q (f a)) -> safe Q (bind r f).
Proof. destruct r; simpl; auto; contradiction. Qed.
Lemma safe_weaken {A} (P Q : A -> Prop) r : safe P r -> (forall a, P a -> Q a) -> safe Q r.
Proof. destruct r; simpl; auto. Qed.
Lemma safe_exists {A} (P Q : A -> Prop) r : (exists a, r = Ok a /\ P a /\ Q a) -> safe P r.
Proof. intros (a & -> & H & _). exact H. Qed.

(** What is asked of ICU *)
Record icu_ok (I : icu) : Prop := {
  io_name : forall l, ic_name I l < 1114112;
  io_prop : forall l b, safe (canon MAXCP) (ic_prop I l b);
  io_close : forall v, canon MAXCP v -> canon MAXCP (snd (ic_close I v))
}.

Definition cset_ok (c : cset) : Prop := canon MAXCP (cs_cps c) /\ bs_wf (cs_bytes c).

Lemma maxcp_pos : (0 < MAXCP)%N. Proof. reflexivity. Qed.
#[global] Hint Resolve maxcp_pos : core.

Lemma inserts_canon l : forall v, canon MAXCP v -> Forall (fun r => (fst r <= snd r <= MAXCP)%N) l -> canon MAXCP (inserts v l).
Proof.
  induction l as [|[a b] l IH]; intros v C F; simpl; auto. inversion F as [|? ? H F']; subst. simpl in H. apply IH; auto. apply insert_canon; auto; lia.
Qed.

Ltac canon_const := apply inserts_canon; [try apply canon_empty|repeat constructor; simpl; unfold MAXCP; try lia].

Lemma ranges_bounds v a b : canon MAXCP v -> In (a, b) (ranges v) -> (a <= b <= MAXCP)%N.
Proof.
  assert (G : forall n v, (length v <= n)%nat -> canon MAXCP v -> In (a, b) (ranges v) -> (a <= b <= MAXCP)%N).
  { clear. induction n as [|n IH]; intros [|x [|y t]] Hl C; cbn [ranges]; try easy; try (simpl in Hl; lia).
    apply even_SS_tail in C as (C & H1 & H2 & _). intros [[= <- <-]|H]; [lia|]. apply (IH t); auto. simpl in Hl. lia. }
  intros C. apply (G (length v)); auto.
Qed.

Lemma ranges_par v a b x : canon MAXCP v -> In (a, b) (ranges v) -> (a <= x < b)%N -> par v x = true.
Proof.
  assert (G : forall n v, (length v <= n)%nat -> canon MAXCP v -> In (a, b) (ranges v) -> (a <= x < b)%N -> par v x = true).
  { clear. induction n as [|n IH]; intros [|c [|d t]] Hl C; cbn [ranges]; try easy; try (simpl in Hl; lia).
    apply even_SS_tail in C as (C & H1 & H2 & H3). intros Hi Hx. rewrite par_pair by auto. destruct Hi as [[= <- <-]|H].
    - destruct (N.leb_spec c x), (N.ltb_spec x d); auto; lia.
    - rewrite (IH t); auto; [apply orb_true_r|]. simpl in Hl. lia. }
  intros C. apply (G (length v)); auto.
Qed.

Lemma par_ranges v x : canon MAXCP v -> par v x = true -> exists a b, In (a, b) (ranges v) /\ (a <= x < b)%N.
Proof.
  assert (G : forall n v, (length v <= n)%nat -> canon MAXCP v -> par v x = true -> exists a b, In (a, b) (ranges v) /\ (a <= x < b)%N).
  { clear. induction n as [|n IH]; intros [|c [|d t]] Hl C P; try (discriminate P); try (simpl in Hl; lia).
    - destruct C as [_ E _]. discriminate E.
    - apply even_SS_tail in C as (C & H1 & H2 & H3). rewrite par_pair in P by auto. cbn [ranges]. apply orb_true_iff in P as [P|P].
      + exists c, d. split; [left; auto|]. lia.
      + destruct (IH t) as (a & b & Hi & Hx); auto; [simpl in Hl; lia|]. exists a, b. split; [right; auto|auto]. }
  intros C. apply (G (length v)); auto.
Qed.

(** Inserting the ranges of [l], moved by [f] *)
Lemma fold_insert_spec (f : N -> N) (l : list (N * N)) : forall v : rset, canon MAXCP v -> (forall a b, In (a, b) l -> (f a <= f b <= MAXCP)%N) ->
  canon MAXCP (fold_left (fun v r => rs_insert v (f (fst r)) (f (snd r))) l v) /\
  forall x, par (fold_left (fun v r => rs_insert v (f (fst r)) (f (snd r))) l v) x = true <->
    par v x = true \/ exists a b, In (a, b) l /\ (f a <= x < f b)%N.
Proof.
  induction l as [|[a b] l IH]; intros v C H.
  - split; auto. intros x. simpl. split; auto. intros [P|(a & b & [] & _)]. auto.
  - cbn [fold_left fst snd]. assert (Hab : (f a <= f b <= MAXCP)%N) by (apply H; left; auto).
    destruct (IH (rs_insert v (f a) (f b))) as (C' & P'); [apply insert_canon; auto; lia|intros; apply H; right; auto|]. split; auto.
    intros x. rewrite P', (insert_par MAXCP) by (auto; lia). rewrite orb_true_iff. split.
    + intros [[Q|Q]|(a' & b' & Hi & Hx)]; auto; right; [exists a, b; split; [left; auto|lia]|exists a', b'; split; [right; auto|auto]].
    + intros [Q|(a' & b' & [[= <- <-]|Hi] & Hx)]; [auto|left; left; lia|right; eauto].
Qed.

Section Sets.
Variable I : icu.
Hypothesis IO : icu_ok I.

Lemma caseUnicode_safe v : canon MAXCP v -> safe (fun p => canon MAXCP (fst p)) (caseDesensitizeUnicode I v).
Proof.
  intros C. unfold caseDesensitizeUnicode. rewrite (count_spec MAXCP v C). cbn [bind]. pose proof (io_close I IO v C) as H.
  destruct (ic_close I v) as [s c]. destruct (s =? _)%N; simpl; auto.
Qed.

Lemma flip_safe v : canon MAXCP v -> safe (canon MAXCP) (rs_flip MAXCP v).
Proof. intros C. destruct (flip_spec MAXCP v maxcp_pos C) as (w & -> & Cw & _). exact Cw. Qed.
Lemma and_safe v w : canon MAXCP v -> canon MAXCP w -> safe (canon MAXCP) (rs_and MAXCP v w).
Proof. intros C D. destruct (and_spec MAXCP v w maxcp_pos C D) as (x & -> & Cx & _). exact Cx. Qed.
Lemma or_safe v w : canon MAXCP v -> canon MAXCP w -> safe (canon MAXCP) (rs_or v w).
Proof. intros C D. destruct (or_spec MAXCP w v D C) as (x & -> & Cx & _). exact Cx. Qed.
Lemma negate_safe b v : canon MAXCP v -> safe (canon MAXCP) (negate b v).
Proof. intros C. destruct b; [apply flip_safe; auto|exact C]. Qed.

Lemma upper_canon : canon MAXCP [65; 91]%N.
Proof. split; [repeat constructor; lia|reflexivity|repeat constructor; unfold MAXCP; lia]. Qed.
Lemma lower_canon : canon MAXCP [97; 123]%N.
Proof. split; [repeat constructor; lia|reflexivity|repeat constructor; unfold MAXCP; lia]. Qed.
Lemma high_canon : canon MAXCP [128; MAXCP]%N.
Proof. split; [repeat constructor; unfold MAXCP; lia|reflexivity|repeat constructor; unfold MAXCP; lia]. Qed.
Lemma pair_par a b x : (a < b)%N -> par [a; b] x = (a <=? x)%N && (x <? b)%N.
Proof. intros H. rewrite par_pair by auto. rewrite orb_false_r. auto. Qed.

(** The two steps of caseDesensitizeAscii that do not depend on ICU *)
Definition ascii_closed (v w : rset) : Prop :=
  canon MAXCP w /\ forall x, (x < MAXCP)%N ->
    (par w x = true <-> par v x = true \/ (97 <= x < 123 /\ par v (x - 32) = true)%N \/ (65 <= x < 91 /\ par v (x + 32) = true)%N).

Lemma and_sub v r w a b : canon MAXCP v -> canon MAXCP r -> rs_and MAXCP v r = Ok w -> In (a, b) (ranges w) ->
  forall x, (a <= x < b)%N -> par v x = true /\ par r x = true.
Proof.
  intros C D E Hi x Hx. destruct (and_spec MAXCP v r maxcp_pos C D) as (w' & E' & Cw & Pw). rewrite E in E'. injection E' as <-.
  pose proof (ranges_bounds w a b Cw Hi) as B. pose proof (ranges_par w a b x Cw Hi Hx) as P. rewrite Pw in P by lia. apply andb_true_iff in P. auto.
Qed.

Lemma in_ranges_lt v a b : canon MAXCP v -> In (a, b) (ranges v) -> (a < b)%N.
Proof.
  assert (G : forall n v, (length v <= n)%nat -> canon MAXCP v -> In (a, b) (ranges v) -> (a < b)%N).
  { clear. induction n as [|n IH]; intros [|x [|y t]] Hl C; cbn [ranges]; try easy; try (simpl in Hl; lia).
    apply even_SS_tail in C as (C & H1 & H2 & _). intros [[= <- <-]|H]; [lia|]. apply (IH t); auto. simpl in Hl. lia. }
  intros C. apply (G (length v)); auto.
Qed.

Lemma ascii_steps v : canon MAXCP v -> exists up us1 lo us2, rs_and MAXCP v [65; 91]%N = Ok up /\
  us1 = fold_left (fun v r => rs_insert v (fst r + 32) (snd r + 32))%N (ranges up) v /\ rs_and MAXCP us1 [97; 123]%N = Ok lo /\
  us2 = fold_left (fun v r => rs_insert v (fst r - 32) (snd r - 32))%N (ranges lo) us1 /\ ascii_closed v us2.
Proof.
  intros C. destruct (and_spec MAXCP v [65; 91]%N maxcp_pos C upper_canon) as (up & E1 & C1 & P1). exists up. eexists.
  assert (B1 : forall a b, In (a, b) (ranges up) -> (65 <= a /\ b <= 91)%N).
  { intros a b Hi. pose proof (in_ranges_lt up a b C1 Hi) as L.
    pose proof (and_sub v _ up a b C upper_canon E1 Hi) as S. destruct (S a) as (_ & Sa); [lia|]. destruct (S (b - 1)%N) as (_ & Sb); [lia|].
    rewrite pair_par in Sa, Sb by lia. lia. }
  destruct (fold_insert_spec (fun x => x + 32)%N (ranges up) v C) as (C2 & P2).
  { intros a b Hi. pose proof (ranges_bounds up a b C1 Hi). apply B1 in Hi. unfold MAXCP in *. lia. }
  set (us1 := fold_left _ (ranges up) v) in *.
  destruct (and_spec MAXCP us1 [97; 123]%N maxcp_pos C2 lower_canon) as (lo & E3 & C3 & P3). exists lo. eexists. split; auto. split; [reflexivity|].
  fold us1. split; auto. split; [reflexivity|].
  assert (B3 : forall a b, In (a, b) (ranges lo) -> (97 <= a /\ b <= 123)%N).
  { intros a b Hi. pose proof (in_ranges_lt lo a b C3 Hi) as L.
    pose proof (and_sub us1 _ lo a b C2 lower_canon E3 Hi) as S. destruct (S a) as (_ & Sa); [lia|]. destruct (S (b - 1)%N) as (_ & Sb); [lia|].
    rewrite pair_par in Sa, Sb by lia. lia. }
  destruct (fold_insert_spec (fun x => x - 32)%N (ranges lo) us1 C2) as (C4 & P4).
  { intros a b Hi. pose proof (ranges_bounds lo a b C3 Hi). apply B3 in Hi. unfold MAXCP in *. lia. }
  split; auto. intros x Hx. rewrite P4.
  assert (S1 : forall y, (y < MAXCP)%N -> par us1 y = true <-> par v y = true \/ (97 <= y < 123 /\ par v (y - 32) = true)%N).
  { intros y Hy. rewrite P2. split; (intros [Q|Q]; [auto|right]).
    - destruct Q as (a & b & Hi & Hab). pose proof (B1 a b Hi) as B. split; [lia|].
      destruct (and_sub v _ up a b C upper_canon E1 Hi (y - 32)%N) as (Q & _); [lia|]. auto.
    - destruct Q as (Q & Qp). assert (M0 : par up (y - 32) = true). { rewrite P1 by lia. rewrite Qp, pair_par by lia. lia. }
      apply par_ranges in M0 as (a & b & Hi & Hab); auto. exists a, b. split; auto. lia. }
  split.
  - intros [Q|(a & b & Hi & Hab)].
    + apply S1 in Q; auto. tauto.
    + pose proof (B3 a b Hi) as B. destruct (and_sub us1 _ lo a b C2 lower_canon E3 Hi (x + 32)%N) as (Q & _); [lia|].
      apply S1 in Q; [|unfold MAXCP; lia]. destruct Q as [Q|(Q1 & Q2)].
      * right; right. split; [lia|auto].
      * left. replace (x + 32 - 32)%N with x in Q2 by lia. auto.
  - intros [Q|[(Q1 & Q2)|(Q1 & Q2)]].
    + left. apply S1; auto.
    + left. apply S1; auto.
    + right. assert (M0 : par lo (x + 32) = true).
      { rewrite P3 by (unfold MAXCP; lia). rewrite pair_par by lia. assert (par us1 (x + 32) = true) as -> by (apply S1; [unfold MAXCP; lia|auto]). lia. }
      apply par_ranges in M0 as (a & b & Hi & Hab); auto. exists a, b. split; auto. lia.
Qed.

Lemma caseAscii_safe v : canon MAXCP v -> safe (fun p => canon MAXCP (fst p)) (caseDesensitizeAscii I v).
Proof.
  intros C. unfold caseDesensitizeAscii. rewrite (count_spec MAXCP v C). cbn [bind].
  destruct (ascii_steps v C) as (up & us1 & lo & us2 & -> & E1 & E2 & E3 & (C2 & _)). cbn [bind]. rewrite <- E1, E2. cbn [bind]. rewrite <- E3.
  destruct (and_spec MAXCP us2 [128; MAXCP]%N maxcp_pos C2 high_canon) as (hi & -> & Ch & _). cbn [bind].
  eapply (safe_bind (canon MAXCP)).
  - destruct (rs_any hi); [|exact C2]. eapply safe_bind; [apply caseUnicode_safe; auto|]. intros [w b] Hw. simpl in Hw. destruct b; [apply or_safe; auto|exact C2].
  - intros w Cw. rewrite (count_spec MAXCP w Cw). exact Cw.
Qed.

Lemma case_safe o v : canon MAXCP v -> safe (fun p => canon MAXCP (fst p)) (caseDesensitize I v o).
Proof. intros C. unfold caseDesensitize. destruct (ascii o); [apply caseAscii_safe|apply caseUnicode_safe]; auto. Qed.

Lemma word_canon : canon MAXCP word_class. Proof. unfold word_class, word. canon_const. Qed.
Lemma linebreak_canon : canon MAXCP linebreak. Proof. unfold linebreak. canon_const. Qed.

Lemma resolve_safe o s : safe (canon MAXCP) (resolve I o s).
Proof.
  destruct s as [b|b|b|b|b|p]; cbn [resolve].
  - eapply (safe_bind (canon MAXCP)); [|intros; apply negate_safe; auto]. destruct (ascii o); [|apply (io_prop I IO)]. cbn [safe]. canon_const.
  - apply negate_safe. destruct (ascii o); [canon_const|]. unfold vert. canon_const. unfold horiz. canon_const.
  - apply negate_safe. unfold horiz. canon_const.
  - apply negate_safe. unfold vert. canon_const.
  - eapply (safe_bind (canon MAXCP)); [|intros; apply negate_safe; auto]. destruct (ascii o); [exact word_canon|].
    eapply safe_bind; [apply (io_prop I IO)|]. intros l Cl. eapply safe_bind; [apply (io_prop I IO)|]. intros n Cn.
    eapply safe_bind; [apply or_safe; eauto|]. intros u Cu. simpl. apply insert_canon; auto; unfold MAXCP; lia.
  - apply (io_prop I IO).
Qed.

Lemma finish_pos_safe o c : cset_ok c -> safe cset_ok (finish_pos I o c).
Proof.
  intros (C & B). unfold finish_pos. eapply (safe_bind (fun p => canon MAXCP (fst p))).
  - destruct (cased o); [exact C|apply case_safe; auto].
  - intros p Cp. destruct (_ || _); simpl; auto. split; auto.
Qed.

Lemma finish_neg_safe o c : cset_ok c -> safe cset_ok (finish_neg I o c).
Proof.
  intros (C & B). unfold finish_neg. destruct (rs_any (cs_cps c)).
  - eapply (safe_bind (fun p => canon MAXCP (fst p))).
    + destruct (cased o); [exact C|apply case_safe; auto].
    + intros p Cp. eapply safe_bind; [apply flip_safe; auto|]. intros w Cw. destruct (rs_any w); simpl; auto. split; auto.
  - destruct (bs_any (cs_bytes c)).
    + cbn beta zeta. destruct (bs_any (bs_not _)); simpl; auto. split; auto. apply not_spec; auto.
    + eapply safe_bind; [apply flip_safe; auto|]. intros w Cw. simpl. split; auto.
Qed.

Lemma char_set_safe a : 0 <= a < 1114112 -> safe cset_ok (char_set a).
Proof.
  intros H. unfold char_set. destruct (set_spec MAXCP [] (Z.to_N a) true maxcp_pos (canon_empty _)) as (v & -> & C & _); [unfold MAXCP; lia|].
  simpl. split; auto. apply empty_wf.
Qed.
Lemma char_range_safe a b : 0 <= a < 1114112 -> 0 <= b < 1114112 -> safe cset_ok (char_range a b).
Proof.
  intros Ha Hb. unfold char_range. destruct (Z.leb_spec b a); simpl; auto. split; [|apply empty_wf]. apply insert_canon; [apply canon_empty|lia|unfold MAXCP; lia].
Qed.
Lemma byte_set_safe a : 0 <= a < 256 -> safe cset_ok (byte_set a).
Proof.
  intros H. unfold byte_set. destruct (set1_spec bs_empty (Z.to_N a) true empty_wf) as (v & -> & C & _); [lia|]. simpl. split; auto. apply canon_empty.
Qed.
Lemma byte_range_safe a b : 0 <= a < 256 -> 0 <= b < 256 -> safe cset_ok (byte_range a b).
Proof.
  intros Ha Hb. unfold byte_range. destruct (Z.leb_spec b a); simpl; auto.
  destruct (set_range_spec bs_empty (Z.to_N a) (Z.to_N b + 1) true empty_wf) as (v & -> & C & _); [lia|lia|]. simpl. split; auto. apply canon_empty.
Qed.
Lemma char_dash_safe a c : 0 <= a < 1114112 -> cset_ok c -> safe cset_ok (char_dash a c).
Proof.
  intros H (C & B). unfold char_dash. simpl. split; auto. cbn [cs_cps]. apply insert_canon; [apply insert_canon; auto; unfold MAXCP; lia|lia|unfold MAXCP; lia].
Qed.
Lemma byte_dash_safe a c : 0 <= a < 256 -> cset_ok c -> safe cset_ok (byte_dash a c).
Proof.
  intros H (C & B). unfold byte_dash. destruct (set1_spec (cs_bytes c) (Z.to_N a) true B) as (v & -> & W & _); [lia|]. simpl. split; auto.
  cbn [cs_cps]. apply insert_canon; auto; unfold MAXCP; lia.
Qed.

Lemma combine_safe op x y : cset_ok x -> cset_ok y -> safe cset_ok (combine op x y).
Proof.
  intros (C1 & B1) (C2 & B2). destruct op; simpl.
  - destruct (or_spec MAXCP (cs_cps y) (cs_cps x) C2 C1) as (v & -> & C & _). simpl. split; auto. apply (map2_spec N.lor orb); auto. apply N.lor_spec.
  - destruct (and_spec MAXCP (cs_cps x) (cs_cps y) maxcp_pos C1 C2) as (v & -> & C & _). simpl. split; auto. apply (map2_spec N.land andb); auto. apply N.land_spec.
  - destruct (sub_spec MAXCP (cs_cps x) (cs_cps y) maxcp_pos C1 C2) as (v & -> & C & _). simpl. split; auto. apply (map2_spec N.land andb); auto; [apply N.land_spec|apply not_spec; auto].
  - destruct (xor_spec MAXCP (cs_cps x) (cs_cps y) maxcp_pos C1 C2) as (v & -> & C & _). simpl. split; auto. apply (map2_spec N.lxor xorb); auto. apply N.lxor_spec.
Qed.

End Sets.
