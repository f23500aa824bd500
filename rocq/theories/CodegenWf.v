(** Compiled programs are well-formed. *)
From Verif Require Import Base InstrModel NfaModel CodegenModel CodegenSpec CodegenLayout CodegenCode CodegenAnn.
From Verif Require Import VmModel VmSpec VmIdeal VmGeneric VmCalls VmCheck.
Open Scope N_scope.

Definition is_label (i : ins) : bool := match i with ILabel _ => true | _ => false end.
Definition is_match (i : ins) : bool := match i with IMatch => true | _ => false end.

(** Annotation of a sequence of instructions. *)
Fixpoint aseq (lab : N) (m : bool) (base : nat) (cs : list ins) : list (option ann) :=
  match cs with
  | [] => []
  | c :: r => Some (mkA lab (is_label c) m (base + length (W cs)))
              :: repeat None (length (ins_words c) - 1) ++ aseq lab (m || is_match c) base r
  end.

Lemma aseq_length lab base : forall cs m, length (aseq lab m base cs) = length (W cs).
Proof.
  induction cs as [|c r IH]; intros m; simpl; auto.
  rewrite !app_length, repeat_length, IH. pose proof (ins_words_pos c). lia.
Qed.

Lemma aseq_app lab base b : forall a m, exists p, length p = length (W a) /\
  aseq lab m base (a ++ b) = p ++ aseq lab (m || existsb is_match a) base b.
Proof.
  induction a as [|c a IH]; intros m.
  - exists []. simpl. rewrite orb_false_r. auto.
  - destruct (IH (m || is_match c)) as (p & H1 & H2). simpl. rewrite H2.
    eexists (Some _ :: repeat None (length (ins_words c) - 1) ++ p). split.
    + simpl. rewrite !app_length, repeat_length, H1. pose proof (ins_words_pos c). lia.
    + simpl. rewrite <- app_assoc, orb_assoc. reflexivity.
Qed.

Lemma nth_error_repeat_none {A} n i (a : A) : nth_error (repeat None n) i = Some (Some a) -> False.
Proof. intros H. apply nth_error_In, repeat_spec in H. discriminate. Qed.

Section Seq.
Variables (P : program) (A : nat -> option ann).

Fixpoint cs_ok (lab : N) (m : bool) (base exit : nat) (cs : list ins) : Prop :=
  match cs with
  | [] => arrive_lt P A lab false (S base) exit
  | ILabel w :: r => w_op w = OpLabel /\ w_off w = lab /\ lab <= p_maxLabel P /\ cs_ok lab m base exit r
  | ICheck w :: r => w_op w = OpCheckHalt /\ w_off w <= p_maxCheck P /\ cs_ok lab m base exit r
  | IMatch :: r => lab <> NOLABEL /\ cs_ok lab true base exit r
  | IFin :: r => m = true /\ lab <= p_maxLabel P /\ r = []
  | IFork a :: r => a < two32 /\ arrive_lt P A lab m (S base) (N.to_nat a) /\ cs_ok lab m base exit r
  | IJump a :: r => a < two32 /\ arrive_lt P A lab m (S base) (N.to_nat a) /\ (r = [] \/ cs_ok lab m base exit r)
  end.

Lemma arrive_lt_weaken lab (m m' : bool) r r' pc : (m = true -> m' = true) -> (r <= r')%nat ->
  arrive_lt P A lab m r pc -> arrive_lt P A lab m' r' pc.
Proof.
  intros Hm Hr (H1 & H2). split.
  - destruct H1 as (a & Ha & H3 & H4). exists a. auto.
  - intros a Ha. specialize (H2 a Ha). lia.
Qed.

Definition agrees (s : nat) (al : list (option ann)) : Prop :=
  forall i a, nth_error al i = Some (Some a) -> A (s + i) = Some a.

Lemma agrees_app s u v : agrees s (u ++ v) -> agrees s u /\ agrees (s + length u) v.
Proof.
  intros H. split; intros i a Hi.
  - apply H. rewrite nth_error_app1; auto. apply nth_error_Some. congruence.
  - rewrite <- Nat.add_assoc. apply H. rewrite nth_error_app2 by lia.
    replace (length u + i - length u)%nat with i by lia. auto.
Qed.

Lemma head_arrive lab m base exit cs s : cs_ok lab m base exit cs -> agrees s (aseq lab m base cs) ->
  seg (p_words P) s (W cs) -> (cs = [] -> s = exit) ->
  arrive_lt P A lab m (S (base + length (W cs))) s.
Proof.
  destruct cs as [|c r]; intros H Ha Hs Hx.
  - simpl. rewrite (Hx eq_refl). simpl in H. eapply arrive_lt_weaken; [| |exact H]; [easy|lia].
  - specialize (Ha 0%nat _ eq_refl). rewrite Nat.add_0_r in Ha.
    assert (Hw: exists w r', ins_words c = w :: r' /\ nth_error (p_words P) s = Some w).
    { unfold W in Hs. simpl in Hs. apply seg_app in Hs. destruct Hs as (Hs & _).
      destruct (ins_words c) as [|w r'] eqn:Ew; [destruct c; discriminate|]. apply seg_cons in Hs. destruct Hs. eauto. }
    destruct Hw as (w & r' & Ew & Hw).
    split.
    + exists (mkA lab (is_label c) m (base + length (W (c :: r)))). split; auto. split; auto.
      assert (Hl: lab_arr (mkA lab (is_label c) m (base + length (W (c :: r)))) lab) by (left; auto).
      unfold is_fin, is_halt. rewrite Hw. destruct c; simpl in Ew; injection Ew as <- <-; simpl in H.
      * destruct H as (H & _). rewrite H. right. exact Hl.
      * destruct H as (H & _). rewrite H. right. exact Hl.
      * right. exact Hl.
      * tauto.
      * right. exact Hl.
      * right. exact Hl.
    + intros a E. rewrite Ha in E. injection E as <-. simpl. lia.
Qed.

Lemma seq_instr lab base exit : lab_ok P lab -> forall cs m s, cs_ok lab m base exit cs ->
  agrees s (aseq lab m base cs) -> seg (p_words P) s (W cs) -> exit = (s + length (W cs))%nat ->
  forall i a, nth_error (aseq lab m base cs) i = Some (Some a) ->
  a_lab a = lab /\ (a_rk a <= base + length (W cs))%nat /\
  exists w, nth_error (p_words P) (s + i) = Some w /\ instr_ok P A (s + i) a w /\
    (w_op w = OpCheckHalt -> exists cs1 cs2, cs = cs1 ++ ICheck w :: cs2 /\ i = length (W cs1)).
Proof.
  intros HL. induction cs as [|c r IH]; intros m s H Ha Hs Hx i a Hi; [destruct i; discriminate|].
  assert (Hs1: seg (p_words P) s (ins_words c ++ W r)) by exact Hs.
  apply seg_app in Hs1. destruct Hs1 as (Hc & Hr).
  set (hd := Some (mkA lab (is_label c) m (base + length (W (c :: r)))) :: repeat None (length (ins_words c) - 1)) in *.
  assert (Easeq: aseq lab m base (c :: r) = hd ++ aseq lab (m || is_match c) base r) by reflexivity.
  assert (Hhd: length hd = length (ins_words c)).
  { unfold hd. simpl. rewrite repeat_length. pose proof (ins_words_pos c). lia. }
  assert (HWl: length (W (c :: r)) = (length (ins_words c) + length (W r))%nat) by (unfold W; simpl; rewrite app_length; auto).
  rewrite Easeq in Ha, Hi. apply agrees_app in Ha. destruct Ha as (Ha1 & Ha2). rewrite Hhd in Ha2.
  assert (Hx': exit = (s + length (ins_words c) + length (W r))%nat) by (rewrite Hx, HWl; lia).
  destruct (lt_dec i (length hd)) as [Hlt|Hge].
  - (* this instruction *)
    rewrite nth_error_app1 in Hi by auto. destruct i as [|i]; [|exfalso; eapply nth_error_repeat_none; exact Hi].
    assert (Ea: a = mkA lab (is_label c) m (base + length (W (c :: r)))) by (change (nth_error hd 0) with (Some (Some (mkA lab (is_label c) m (base + length (W (c :: r)))))) in Hi; congruence).
    subst a. cbn [a_lab a_rk]. split; auto. split; [lia|].
    rewrite Nat.add_0_r.
    assert (Next: forall m', cs_ok lab m' base exit r -> (m || is_match c = m') ->
        arrive_lt P A lab m' (base + length (W (c :: r))) (s + length (ins_words c))).
    { intros m' Hr' Em. eapply arrive_lt_weaken; [intros E; exact E| |eapply (head_arrive lab m' base exit r)]; auto.
      - pose proof (ins_words_pos c). lia.
      - rewrite <- Em. auto.
      - intros ->. rewrite Hx'. unfold W. simpl. lia. }
    destruct c; cbn [ins_words] in Hc; cbn [cs_ok] in H.
    + apply seg_cons in Hc. destruct Hc as (Hc & _). exists w. split; auto. destruct H as (H1 & H2 & H3 & H4). split.
      * unfold instr_ok. rewrite H1. cbn [a_lab a_m a_rk]. rewrite H2. split; auto. split; auto.
        apply Next; auto. simpl. rewrite orb_false_r; auto.
      * rewrite H1. discriminate.
    + apply seg_cons in Hc. destruct Hc as (Hc & _). exists w. split; auto. destruct H as (H1 & H2 & H3). split.
      * unfold instr_ok. rewrite H1. cbn [a_lab a_m a_rk a_any is_label]. split; auto. split; auto.
        apply Next; auto. simpl. rewrite orb_false_r; auto.
      * intros _. exists [], r. auto.
    + apply seg_cons in Hc. destruct Hc as (Hc & _). exists makeMatch. split; auto. destruct H as (H1 & H2). split.
      * change (instr_ok P A s (mkA lab (is_label IMatch) m (base + length (W (IMatch :: r)))) makeMatch) with
          (false = false /\ lab <> NOLABEL /\ arrive_lt P A lab true (base + length (W (IMatch :: r))) (s + 1)).
        split; auto. split; auto. apply Next; auto. simpl. rewrite orb_true_r; auto.
      * discriminate.
    + apply seg_cons in Hc. destruct Hc as (Hc & _). exists makeFinish. split; auto. destruct H as (H1 & H2 & H3). split.
      * exact H1.
      * discriminate.
    + apply seg_cons in Hc. destruct Hc as (Hc & Hc2). apply seg_cons in Hc2. destruct Hc2 as (Hc2 & _).
      destruct H as (H1 & H2 & H3). exists 7. split; auto. rewrite N.mod_small in Hc2 by auto. split.
      * change (false = false /\ arrive_lt P A lab m (base + length (W (IFork a :: r))) (s + 2) /\
           exists x, nth_error (p_words P) (s + 1) = Some x /\ arrive_lt P A lab m (base + length (W (IFork a :: r))) (N.to_nat x)).
        split; auto. split; [apply Next; auto; simpl; rewrite orb_false_r; auto|]. exists a. split; auto.
        eapply arrive_lt_weaken; [| |exact H2]; auto. cbn [ins_words] in HWl. change (length (makeFork a)) with 2%nat in HWl. lia.
      * discriminate.
    + apply seg_cons in Hc. destruct Hc as (Hc & Hc2). apply seg_cons in Hc2. destruct Hc2 as (Hc2 & _).
      destruct H as (H1 & H2 & H3). exists 8. split; auto. rewrite N.mod_small in Hc2 by auto. split.
      * change (false = false /\ exists x, nth_error (p_words P) (s + 1) = Some x /\ arrive_lt P A lab m (base + length (W (IJump a :: r))) (N.to_nat x)).
        split; auto. exists a. split; auto.
        eapply arrive_lt_weaken; [| |exact H2]; auto. cbn [ins_words] in HWl. change (length (makeJump a)) with 2%nat in HWl. lia.
      * discriminate.
  - (* later *)
    rewrite nth_error_app2 in Hi by lia.
    assert (Hrest: cs_ok lab (m || is_match c) base exit r).
    { assert (Hne: r <> []). { intros ->. destruct (i - length hd)%nat; discriminate. }
      destruct c; cbn [cs_ok] in H; cbn [is_match]; rewrite ?orb_false_r, ?orb_true_r; try tauto. }
    destruct (IH _ _ Hrest Ha2 Hr Hx' _ _ Hi) as (I1 & I2 & w & I3 & I4 & I5).
    split; auto. split; [lia|]. exists w.
    replace (s + length (ins_words c) + (i - length hd))%nat with (s + i)%nat in * by lia.
    split; auto. split; auto. intros Ho. destruct (I5 Ho) as (c1 & c2 & -> & J2).
    exists (c :: c1), c2. split; auto. unfold W in *. simpl. rewrite app_length. lia.
Qed.
End Seq.

(** * Jump tables *)

Lemma jc_spec g h : forall cells ind t is, jc g h cells ind = (t, is) ->
  length t = length cells /\
  forall k c, nth_error cells k = Some c -> exists e, nth_error t k = Some e /\
    match c with
    | [] => e = 0
    | [v] => e = land_of g h v mod two32
    | _ => exists is1 is2, is = is1 ++ ind_ins (map (land_of g h) c) ++ is2 /\
             e = (ind + N.of_nat (length (W is1))) mod two32
    end.
Proof.
  induction cells as [|c r IH]; intros ind t is H; simpl in H.
  - injection H as <- <-. split; auto. intros [|k] c H; discriminate.
  - assert (Case: (exists t1 i1 code e, jc g h r (ind + N.of_nat (length (W code))) = (t1, i1) /\ t = e :: t1 /\ is = code ++ i1 /\
       match c with
       | [] => e = 0
       | [v] => e = land_of g h v mod two32
       | _ => code = ind_ins (map (land_of g h) c) /\ e = ind mod two32
       end)).
    { destruct c as [|v [|v2 c]].
      - destruct (jc g h r ind) as [t1 i1] eqn:E. injection H as <- <-. exists t1, i1, [], 0.
        simpl length. change (N.of_nat 0) with 0. rewrite N.add_0_r. auto.
      - destruct (jc g h r ind) as [t1 i1] eqn:E. injection H as <- <-. eexists t1, i1, [], _.
        simpl length. change (N.of_nat 0) with 0. rewrite N.add_0_r. auto.
      - match type of H with (let (_, _) := ?j in _) = _ => destruct j as [t1 i1] eqn:E end.
        injection H as <- <-. eexists t1, i1, _, _. split; [exact E|]. auto. }
    destruct Case as (t1 & i1 & code & e & E & -> & -> & HC).
    destruct (IH _ _ _ E) as (I1 & I2). split; [simpl; congruence|].
    intros [|k] d Hd.
    + simpl in Hd. injection Hd as <-. exists e. split; auto. destruct c as [|v [|v2 c]]; auto.
      destruct HC as (-> & ->). exists [], i1. split; auto. simpl length. f_equal. lia.
    + destruct (I2 k d Hd) as (e' & E' & HE). exists e'. split; auto. destruct d as [|v [|v2 d]]; auto.
      destruct HE as (is1 & is2 & -> & ->). exists (code ++ is1), is2. split; [rewrite app_assoc; auto|].
      rewrite W_app, app_length. f_equal. lia.
Qed.

Lemma jc_in g h : forall cells ind t is, jc g h cells ind = (t, is) ->
  forall Q : list ins -> Prop, Q [] ->
  (forall c i, In c cells -> (1 < length c)%nat -> Q i -> Q (ind_ins (map (land_of g h) c) ++ i)) -> Q is.
Proof.
  induction cells as [|c r IH]; intros ind t is H Q Q0 QS; simpl in H.
  - injection H as <- <-. auto.
  - destruct c as [|v [|v2 c]].
    + destruct (jc g h r ind) as [t1 i1] eqn:E. injection H as <- <-. eapply IH; eauto. intros; apply QS; auto; right; auto.
    + destruct (jc g h r ind) as [t1 i1] eqn:E. injection H as <- <-. eapply IH; eauto. intros; apply QS; auto; right; auto.
    + match type of H with (let (_, _) := ?j in _) = _ => destruct j as [t1 i1] eqn:E end.
      injection H as <- <-. apply (QS (v :: v2 :: c) i1); [left; auto|simpl; lia|]. eapply IH; eauto. intros; apply QS; auto; right; auto.
Qed.

Lemma no_match_ind ls : existsb is_match (ind_ins ls) = false.
Proof.
  destruct ls as [|l r]; auto. unfold ind_ins. rewrite existsb_app. simpl. rewrite orb_false_r.
  induction (rev r); auto.
Qed.

Lemma jc_no_match g h cells ind t is : jc g h cells ind = (t, is) -> existsb is_match is = false.
Proof.
  intros H. apply (jc_in _ _ _ _ _ _ H (fun i => existsb is_match i = false)); auto.
  intros c i _ _ Hi. rewrite existsb_app, no_match_ind, Hi. auto.
Qed.

Lemma cs_ok_ind P A lab base exit ls i : ls <> [] ->
  (forall a, In a ls -> a < two32 /\ arrive_lt P A lab false (S base) (N.to_nat a)) ->
  (i = [] \/ cs_ok P A lab false base exit i) -> cs_ok P A lab false base exit (ind_ins ls ++ i).
Proof.
  destruct ls as [|l r]; [easy|]. intros _ H Hi. unfold ind_ins. rewrite <- app_assoc. simpl.
  assert (Hr: forall a, In a (rev r) -> a < two32 /\ arrive_lt P A lab false (S base) (N.to_nat a)).
  { intros a Ha. apply in_rev in Ha. apply H. right. auto. }
  induction (rev r) as [|a q IH]; simpl.
  - destruct (H l); [left; auto|]. auto.
  - destruct (Hr a); [left; auto|]. split; [auto|split; [auto|]]. apply IH. intros; apply Hr; right; auto.
Qed.

(** * The annotation of the program *)

Lemma flat_map_at {B} (f : nat -> list B) sz : forall l v i, NoDup l -> In v l ->
  (forall u, In u l -> N.of_nat (length (f u)) = sz u) -> (i < length (f v))%nat ->
  nth_error (flat_map f l) (N.to_nat (addr sz l v) + i) = nth_error (f v) i.
Proof.
  induction l as [|u l IH]; intros v i Hnd Hv Hsz Hi; [easy|]. inversion Hnd; subst. simpl.
  destruct (Nat.eqb_spec u v) as [->|Hne].
  - change (N.to_nat 0 + i)%nat with i. rewrite nth_error_app1; auto.
  - destruct Hv as [?|Hv]; [easy|]. specialize (Hsz u (or_introl eq_refl)) as Hu.
    rewrite nth_error_app2 by lia. rewrite <- (IH v i); auto. 2:{ intros; apply Hsz; right; auto. }
    f_equal. lia.
Qed.

Lemma flat_map_inv {B} (f : nat -> list B) sz : forall l k a, NoDup l ->
  (forall u, In u l -> N.of_nat (length (f u)) = sz u) -> nth_error (flat_map f l) k = Some a ->
  exists v i, In v l /\ nth_error (f v) i = Some a /\ k = (N.to_nat (addr sz l v) + i)%nat.
Proof.
  induction l as [|u l IH]; intros k a Hnd Hsz Hk; [destruct k; discriminate|]. inversion Hnd; subst. simpl in Hk.
  destruct (lt_dec k (length (f u))) as [Hlt|Hge].
  - rewrite nth_error_app1 in Hk by auto. exists u, k. split; [left; auto|]. split; auto. simpl. rewrite Nat.eqb_refl. auto.
  - rewrite nth_error_app2 in Hk by lia. destruct (IH _ _ H2 (fun u Hu => Hsz u (or_intror Hu)) Hk) as (v & i & Hv & Hi & E).
    exists v, i. split; [right; auto|]. split; auto. simpl. destruct (Nat.eqb_spec u v) as [->|]; [contradiction|].
    specialize (Hsz u (or_introl eq_refl)). lia.
Qed.

Lemma flat_map_total {B} (f : nat -> list B) sz : forall l,
  (forall u, In u l -> N.of_nat (length (f u)) = sz u) -> N.of_nat (length (flat_map f l)) = total sz l.
Proof.
  induction l as [|u l IH]; intros H; simpl; auto. rewrite app_length.
  rewrite <- (H u (or_introl eq_refl)), <- IH; [lia|]. intros; apply H; right; auto.
Qed.

Section Prog.
Variables (g : nfa) (K : nat -> N) (h : helper) (order : list nat) (P : program).
Hypothesis G : good g K.
Hypothesis L : layout g h order.
Hypothesis WR : written g h order P.

Notation start := (start h).
Notation evlen := (evlen h).
Notation len := (len h).
Notation guard := (guard h).
Notation code := (code_of g h).

Definition labelled (v : nat) : bool :=
  match nth_error g v with Some x => negb (v_label x =? NONE32) | None => false end.

Definition aev (v : nat) : list (option ann) :=
  match sc_ev (code v) with
  | [] => []
  | _ :: r => Some (mkA (K v) (labelled v) false 0) :: repeat None (length r)
  end.

Definition ajt (v : nat) : list (option ann) :=
  match sc_jt (code v) with
  | None => []
  | Some j => Some (mkA (K v) false false 0) :: repeat None (length (jt_table j)) ++ aseq (K v) false (S guard) (jt_ind j)
  end.

Definition acode (v : nat) : list (option ann) := aev v ++ aseq (K v) false 0 (sc_seq (code v)) ++ ajt v.

Lemma aev_length v : length (aev v) = length (sc_ev (code v)).
Proof. unfold aev. destruct (sc_ev (code v)); simpl; rewrite ?repeat_length; auto. Qed.

Lemma ajt_length v : length (ajt v) = length (jt_words (sc_jt (code v))).
Proof. unfold ajt. destruct (sc_jt (code v)); simpl; rewrite ?app_length, ?repeat_length, ?aseq_length; auto. Qed.

Lemma acode_length v : (v < length g)%nat -> length (acode v) = len v.
Proof.
  intros Hv. destruct (code_of_ok g K h order P G L WR v Hv) as (x & s & C).
  rewrite <- (co_len _ _ _ _ _ _ C). unfold acode, sc_words. rewrite !app_length, aseq_length, aev_length, ajt_length. auto.
Qed.

Definition annots : list (option ann) :=
  flat_map acode order ++ [Some (mkA NOLABEL false false 0); Some (mkA NOLABEL false true 0)].

Definition An : nat -> option ann := annot annots.

Lemma annot_some al pc a : annot al pc = Some a <-> nth_error al pc = Some (Some a).
Proof.
  unfold annot. split; intros H.
  - destruct (nth_error al pc) as [o|] eqn:E.
    + apply (nth_error_nth al pc None) in E. congruence.
    + apply nth_error_None in E. rewrite nth_overflow in H by auto. discriminate.
  - apply (nth_error_nth al pc None) in H. auto.
Qed.

Lemma acode_size u : In u order -> N.of_nat (length (acode u)) = size_at (h_snips h) u.
Proof. intros Hu. apply (ly_all _ _ _ L) in Hu. rewrite acode_length by auto. unfold CodegenCode.len. lia. Qed.

Lemma annots_guard : length (flat_map acode order) = guard.
Proof.
  pose proof (flat_map_total acode (size_at (h_snips h)) order acode_size). rewrite <- (ly_guard _ _ _ L) in H.
  unfold CodegenCode.guard. lia.
Qed.

Lemma An_at v : (v < length g)%nat -> agrees An (start v) (acode v).
Proof.
  intros Hv i a Hi. apply annot_some. unfold annots.
  assert (Hlt: (i < length (acode v))%nat) by (apply nth_error_Some; congruence).
  pose proof (seg_end g h order L v Hv). rewrite acode_length in Hlt by auto.
  rewrite nth_error_app1 by (rewrite annots_guard; lia).
  assert (Es: start v = N.to_nat (addr (size_at (h_snips h)) order v)).
  { pose proof (start_addr g h order L v Hv). lia. }
  rewrite Es, (flat_map_at acode (size_at (h_snips h))); auto.
  - apply (ly_nodup _ _ _ L).
  - apply (ly_all _ _ _ L); auto.
  - apply acode_size.
  - rewrite acode_length; auto.
Qed.

Lemma An_inv pc a : An pc = Some a ->
  (exists v i, (v < length g)%nat /\ nth_error (acode v) i = Some (Some a) /\ pc = (start v + i)%nat) \/
  (pc = guard /\ a = mkA NOLABEL false false 0) \/ (pc = (guard + 1)%nat /\ a = mkA NOLABEL false true 0).
Proof.
  intros H. apply annot_some in H. unfold annots in H.
  destruct (lt_dec pc guard) as [Hlt|Hge].
  - left. rewrite nth_error_app1 in H by (rewrite annots_guard; auto).
    apply (flat_map_inv acode (size_at (h_snips h))) in H; [|apply (ly_nodup _ _ _ L)|apply acode_size].
    destruct H as (v & i & Hv & Hi & ->). apply (ly_all _ _ _ L) in Hv. exists v, i. split; auto. split; auto.
    pose proof (start_addr g h order L v Hv). lia.
  - right. rewrite nth_error_app2 in H by (rewrite annots_guard; lia). rewrite annots_guard in H.
    destruct (pc - guard)%nat as [|[|k]] eqn:E; simpl in H.
    + injection H as <-. left. split; auto. lia.
    + injection H as <-. right. split; auto. lia.
    + destruct k; discriminate.
Qed.

Lemma An_guard : An guard = Some (mkA NOLABEL false false 0).
Proof.
  apply annot_some. unfold annots. rewrite nth_error_app2 by (rewrite annots_guard; lia).
  rewrite annots_guard, Nat.sub_diag. auto.
Qed.

Lemma An_finish : An (guard + 1) = Some (mkA NOLABEL false true 0).
Proof.
  apply annot_some. unfold annots. rewrite nth_error_app2 by (rewrite annots_guard; lia).
  rewrite annots_guard. replace (guard + 1 - guard)%nat with 1%nat by lia. auto.
Qed.

(** ** Labels *)

Lemma edge_lt v c : edge g v c -> (c < length g)%nat /\ c <> 0%nat.
Proof. intros H. destruct (gd_edge _ _ G v c H). auto. Qed.

Lemma K_label v : reach g v -> K v <> NOLABEL -> exists c x, nth_error g c = Some x /\ v_label x = K v /\ v_label x <> NOLABEL.
Proof.
  induction 1 as [|v c Hr IH He]; intros HK.
  - rewrite (gd_K0 _ _ G) in HK. easy.
  - destruct (N.eq_dec (K v) NOLABEL) as [E|E].
    + destruct (edge_lt v c He) as (Hc & _). destruct (nth_error g c) as [x|] eqn:Ex; [|apply nth_error_None in Ex; lia].
      exists c, x. rewrite (gd_Khead _ _ G v c x He E Ex). auto.
    + rewrite (gd_Kedge _ _ G v c He E) in *. auto.
Qed.

Lemma K_max v : (v < length g)%nat -> K v <> NOLABEL -> K v <= p_maxLabel P.
Proof.
  intros Hv HK. destruct (K_label v (gd_reach _ _ G v Hv) HK) as (c & x & Ex & El & En).
  rewrite (wr_maxLabel _ _ _ _ WR), <- El. apply (ly_label _ _ _ L c x Ex). auto.
Qed.

Lemma K_lab_ok v : (v < length g)%nat -> lab_ok P (K v).
Proof. intros Hv. destruct (N.eq_dec (K v) NOLABEL); [left; auto|right; apply K_max; auto]. Qed.

Lemma lab_in v c : edge g v c -> lab_arr (mkA (K c) (labelled c) false 0) (K v).
Proof.
  intros He. destruct (N.eq_dec (K v) NOLABEL) as [E|E].
  - destruct (edge_lt v c He) as (Hc & _). destruct (nth_error g c) as [x|] eqn:Ex; [|apply nth_error_None in Ex; lia].
    pose proof (gd_Khead _ _ G v c x He E Ex) as El. unfold lab_arr, labelled. rewrite Ex. cbn [a_lab a_any].
    destruct (N.eqb_spec (v_label x) NONE32) as [En|En]; simpl.
    + left. rewrite E, <- El. exact En.
    + right. auto.
  - left. apply (gd_Kedge _ _ G v c He E).
Qed.

(** ** Parts of a state *)

Definition ex (v : nat) : nat := (start v + length (sc_ev (code v)) + length (W (sc_seq (code v))))%nat.

Lemma parts v x s : code_ok g h P v x s ->
  seg (p_words P) (start v) (sc_ev (code v)) /\
  seg (p_words P) (start v + length (sc_ev (code v))) (W (sc_seq (code v))) /\
  seg (p_words P) (ex v) (jt_words (sc_jt (code v))).
Proof.
  intros C. pose proof (co_seg _ _ _ _ _ _ C) as H. unfold sc_words in H.
  apply seg_app in H. destruct H as (H1 & H). apply seg_app in H. destruct H as (H2 & H3).
  unfold ex. auto.
Qed.

Lemma aparts v : (v < length g)%nat -> agrees An (start v) (aev v) /\
  agrees An (start v + length (sc_ev (code v))) (aseq (K v) false 0 (sc_seq (code v))) /\ agrees An (ex v) (ajt v).
Proof.
  intros Hv. pose proof (An_at v Hv) as H. unfold acode in H.
  apply agrees_app in H. destruct H as (H1 & H). apply agrees_app in H. destruct H as (H2 & H3).
  rewrite aev_length, aseq_length in *. unfold ex. auto.
Qed.

Lemma lens v : (v < length g)%nat ->
  (length (sc_ev (code v)) + length (W (sc_seq (code v))) + length (jt_words (sc_jt (code v))) = len v)%nat /\
  (start v + len v <= guard)%nat.
Proof.
  intros Hv. destruct (code_of_ok g K h order P G L WR v Hv) as (x & s & C). split.
  - rewrite <- (co_len _ _ _ _ _ _ C). unfold sc_words. rewrite !app_length. lia.
  - apply (seg_end g h order L v Hv).
Qed.

Lemma ev_cons v x s : code_ok g h P v x s -> v <> 0%nat ->
  exists t w r, v_trans x = Some t /\ sc_ev (code v) = w :: r /\ byte_op (w_op w) = true /\ toInstruction t = Ok (sc_ev (code v)) /\ trans_ok t /\
    nth_error (p_words P) (start v) = Some w /\
    (length (sc_ev (code v)) = if match w_op w with OpBitVector => true | _ => false end then 9%nat else 1%nat).
Proof.
  intros C Hv0. pose proof (co_ev _ _ _ _ _ _ C) as H. destruct (Nat.eqb_spec v 0); [easy|].
  destruct H as (t & Et & Ht & H). destruct (toInstruction_ok t _ H Ht) as (w & r & E1 & E2 & E3 & _).
  exists t, w, r. destruct (parts v x s C) as (Hs & _). rewrite E1 in Hs. apply seg_cons in Hs. destruct Hs.
  repeat split; auto.
Qed.

Lemma aev_head v x s : code_ok g h P v x s -> (v < length g)%nat -> v <> 0%nat -> An (start v) = Some (mkA (K v) (labelled v) false 0).
Proof.
  intros C Hv Hv0. destruct (ev_cons v x s C Hv0) as (t & w & r & _ & E & _).
  destruct (aparts v Hv) as (H & _). unfold aev in H. rewrite E in H. specialize (H 0%nat _ eq_refl).
  rewrite Nat.add_0_r in H. auto.
Qed.

Lemma byte_not_fin pc w : nth_error (p_words P) pc = Some w -> byte_op (w_op w) = true ->
  is_fin P pc = false /\ is_halt P pc = false.
Proof. intros H1 H2. unfold is_fin, is_halt. rewrite H1. destruct (w_op w); auto; discriminate. Qed.

Lemma arr_start v c : edge g v c -> arrive_lt P An (K v) false 1 (start c).
Proof.
  intros He. destruct (edge_lt v c He) as (Hc & Hc0).
  destruct (code_of_ok g K h order P G L WR c Hc) as (x & s & C).
  pose proof (aev_head c x s C Hc Hc0) as HA.
  destruct (ev_cons c x s C Hc0) as (t & w & r & _ & _ & Hb & _ & _ & Hw & _).
  destruct (byte_not_fin _ _ Hw Hb) as (Hf & _).
  split.
  - eexists. split; [exact HA|]. split; [easy|]. rewrite Hf. right. apply lab_in; auto.
  - intros a E. rewrite HA in E. injection E as <-. simpl. lia.
Qed.

Lemma mm_gen (u : list nat) : (forall i, In i u -> (i < 256)%nat) ->
  (match u with [] => 0%nat | i :: _ => i end <=
   (if match u with [] => 0%nat | i :: _ => i end <? last u 0 then last u 0 else 255) < 256)%nat.
Proof.
  intros H. destruct u as [|a u]; [simpl; lia|].
  assert (Ha: (a < 256)%nat) by (apply H; left; auto).
  assert (Hl: (last (a :: u) 0 < 256)%nat) by (apply H, last_in; discriminate).
  destruct (Nat.ltb_spec a (last (a :: u) 0%nat)); lia.
Qed.

Lemma minAndMax_range tbl f l : minAndMax tbl = (f, l) -> (f <= l < 256)%nat.
Proof.
  intros H. pose proof (mm_gen (used tbl) (fun i Hi => proj1 (used_in tbl i Hi))) as Hg.
  assert (Ef: f = fst (minAndMax tbl)) by (rewrite H; reflexivity).
  assert (El: l = snd (minAndMax tbl)) by (rewrite H; reflexivity).
  rewrite Ef, El. exact Hg.
Qed.

Lemma jt_head_ok v x s : code_ok g h P v x s -> sn_jt s = true ->
  exists tbl f l w t i, pivotStates g v = Ok tbl /\ minAndMax tbl = (f, l) /\ (f <= l < 256)%nat /\
    sc_jt (code v) = Some (mkJT w f l t i) /\ w_op w = OpJumpTable /\ w_first w = N.of_nat f /\ w_last w = N.of_nat l /\
    jc g h (firstn (l + 1 - f) (skipn f tbl)) (N.of_nat (ex v) + 2 + N.of_nat (l - f)) = (t, i).
Proof.
  intros C Hj. destruct (co_jt _ _ _ _ _ _ C Hj) as (tbl & f & l & w & t & i & T1 & T2 & T3 & T4 & T5 & _).
  pose proof (minAndMax_range _ _ _ T2) as Hfl.
  destruct (makeJT_ok _ _ _ T3 ltac:(lia) ltac:(lia)) as (J1 & J2 & J3 & J4).
  exists tbl, f, l, w, t, i. repeat split; auto; try lia.
  rewrite (co_code _ _ _ _ _ _ C). cbn [sc_jt]. rewrite Hj, T4. auto.
Qed.

Lemma arr_jt v x s : code_ok g h P v x s -> (v < length g)%nat -> sn_jt s = true -> arrive_lt P An (K v) false 1 (ex v).
Proof.
  intros C Hv Hj. destruct (jt_head_ok v x s C Hj) as (tbl & f & l & w & t & i & _ & _ & _ & Ej & Ho & _).
  destruct (parts v x s C) as (_ & _ & Hs). rewrite Ej in Hs. cbn [jt_words jt_head] in Hs. apply seg_cons in Hs. destruct Hs as (Hs & _).
  destruct (aparts v Hv) as (_ & _ & HA). unfold ajt in HA. rewrite Ej in HA. specialize (HA 0%nat _ eq_refl). rewrite Nat.add_0_r in HA.
  split.
  - eexists. split; [exact HA|]. split; [easy|]. unfold is_fin, is_halt. rewrite Hs, Ho. right. left. auto.
  - intros a E. rewrite HA in E. injection E as <-. simpl. lia.
Qed.

Lemma arr_finish v : (v < length g)%nat -> K v <> NOLABEL -> arrive_lt P An (K v) true 1 (guard + 1).
Proof.
  intros Hv HK. split.
  - eexists. split; [exact An_finish|]. split; [auto|]. unfold is_fin. rewrite (wr_finish _ _ _ _ WR).
    change (w_op makeFinish) with OpFinish. cbn iota. apply K_max; auto.
  - intros a E. rewrite An_finish in E. injection E as <-. simpl. lia.
Qed.

Lemma sstart_start v : (v < length g)%nat -> N.to_nat (sstart h v) = start v /\ sstart h v < two32.
Proof.
  intros Hv. destruct (ly_snip _ _ _ L v Hv) as (x & s & _ & Es & _).
  unfold sstart, CodegenCode.start. rewrite Es. split; auto.
  pose proof (seg_end g h order L v Hv). unfold CodegenCode.start in H. rewrite Es in H.
  pose proof (ly_bound _ _ _ L). unfold CodegenCode.guard in H. lia.
Qed.

Lemma code_seq v x s : code_ok g h P v x s -> sc_seq (code v) = pre_ins h x s ++ out_ins h v x s.
Proof. intros C. rewrite (co_code _ _ _ _ _ _ C) at 1. auto. Qed.

Lemma out_ok v x s m : code_ok g h P v x s -> (v < length g)%nat -> v_out x <> [] ->
  cs_ok P An (K v) m 0 (ex v) (out_ins h v x s).
Proof.
  intros C Hv Ho. unfold out_ins. destruct (sn_jt s) eqn:Ej.
  - apply (arr_jt v x s C Hv Ej).
  - destruct (v_out x) as [|c r] eqn:Eo; [easy|].
    assert (Hed: forall u, In u (c :: r) -> edge g v u).
    { intros u Hu. unfold edge. rewrite (edge_outs _ _ _ (co_x _ _ _ _ _ _ C)), Eo. auto. }
    assert (Ht: forall u, In u (c :: r) -> sstart h u < two32 /\ arrive_lt P An (K v) m 1 (N.to_nat (sstart h u))).
    { intros u Hu. destruct (edge_lt v u (Hed u Hu)) as (Hl & _). destruct (sstart_start u Hl) as (E1 & E2). split; auto.
      rewrite E1. eapply arrive_lt_weaken; [| |apply arr_start; apply Hed; auto]; [easy|lia]. }
    rewrite <- map_rev, map_map.
    assert (Hr: forall u, In u (rev r) -> In u (c :: r)) by (intros u Hu; right; apply in_rev; auto).
    induction (rev r) as [|u q IH].
    + simpl. destruct (follows h v c) eqn:Ef.
      * simpl. assert (Ee: ex v = start c).
        { rewrite (co_follows _ _ _ _ _ _ C Ej c r Eo Ef). destruct (lens v Hv) as (Hlen & _).
          assert (En: sc_jt (code v) = None) by (rewrite (co_code _ _ _ _ _ _ C); cbn [sc_jt]; rewrite Ej; auto).
          rewrite En in Hlen. simpl in Hlen. unfold ex. lia. }
        rewrite Ee. apply arr_start. apply Hed. left; auto.
      * simpl. destruct (Ht c (or_introl eq_refl)). auto.
    + simpl. destruct (Ht u) as (T1 & T2); [apply Hr; left; auto|]. split; auto. split; auto.
      apply IH. intros w Hw. apply Hr. right. auto.
Qed.

Lemma seq_ok v x s : code_ok g h P v x s -> (v < length g)%nat ->
  cs_ok P An (K v) false 0 (ex v) (sc_seq (code v)).
Proof.
  intros C Hv. rewrite (code_seq v x s C).
  assert (Hlabs: v_label x <> NONE32 -> w_op (res_or (makeLabel (v_label x)) 0) = OpLabel /\
     w_off (res_or (makeLabel (v_label x)) 0) = K v /\ K v <= p_maxLabel P).
  { intros Hn. destruct (makeLabel_ok _ _ (co_lab _ _ _ _ _ _ C Hn)) as (_ & H1 & H2).
    destruct (gd_Klabel _ _ G v x (co_x _ _ _ _ _ _ C)) as [E|E]; [exfalso; apply Hn; exact E|].
    split; auto. split; [rewrite H2; auto|]. apply K_max; auto. rewrite <- E. exact Hn. }
  assert (Hchk: sn_check s <> NONE32 -> w_op (res_or (makeCheckHalt (sn_check s)) 0) = OpCheckHalt /\
     w_off (res_or (makeCheckHalt (sn_check s)) 0) <= p_maxCheck P).
  { intros Hn. destruct (makeCheck_ok _ _ (co_chk _ _ _ _ _ _ C Hn)) as (_ & H1 & H2).
    rewrite H2, (wr_maxCheck _ _ _ _ WR). split; auto.
    destruct (ly_snip _ _ _ L v Hv) as (x' & s' & _ & Es & _ & _ & [E|E] & _);
      rewrite (co_s _ _ _ _ _ _ C) in Es; injection Es as <-; [contradiction|auto]. }
  assert (Hmt: cs_ok P An (K v) false 0 (ex v)
     ((if v_match x then IMatch :: match v_out x with [] => [IFin] | _ => [IFork ((h_guard h + 1) mod two32)] end else []) ++ out_ins h v x s)).
  { destruct (v_match x) eqn:Em.
    - assert (HK: K v <> NOLABEL) by (apply (gd_Kmatch _ _ G v x (co_x _ _ _ _ _ _ C) Em)).
      cbn [app cs_ok]. split; auto.
      destruct (v_out x) as [|c r] eqn:Eo.
      + cbn [app cs_ok]. split; auto. split; [apply K_max; auto|].
        unfold out_ins. rewrite Eo. destruct (sn_jt s) eqn:Ej; auto.
      + cbn [app cs_ok]. pose proof (ly_bound _ _ _ L). rewrite N.mod_small by lia. split; [lia|]. split.
        * replace (N.to_nat (h_guard h + 1)) with (guard + 1)%nat by (unfold CodegenCode.guard; lia). apply arr_finish; auto.
        * apply out_ok; auto. rewrite Eo. discriminate.
    - simpl. apply out_ok; auto. intros Eo.
      destruct (Nat.eq_dec v 0) as [->|Hv0].
      + destruct (gd_root _ _ G) as (x' & Ex' & _ & _ & _ & _ & Hne). rewrite (co_x _ _ _ _ _ _ C) in Ex'. injection Ex' as <-. contradiction.
      + destruct (gd_state _ _ G v x Hv0 (co_x _ _ _ _ _ _ C)) as (_ & Hm). rewrite Hm in Em by auto. discriminate. }
  unfold pre_ins. rewrite <- !app_assoc.
  assert (Hck: cs_ok P An (K v) false 0 (ex v) ((if sn_check s =? NONE32 then [] else [ICheck (res_or (makeCheckHalt (sn_check s)) 0)]) ++
     ((if v_match x then IMatch :: match v_out x with [] => [IFin] | _ => [IFork ((h_guard h + 1) mod two32)] end else []) ++ out_ins h v x s))).
  { destruct (N.eqb_spec (sn_check s) NONE32) as [E|E]; auto. destruct (Hchk E). cbn [app cs_ok]. auto. }
  destruct (N.eqb_spec (v_label x) NONE32) as [E|E]; auto.
  destruct (Hlabs E) as (H1 & H2 & H3). cbn [app cs_ok]. auto.
Qed.

(** ** Landings *)

Lemma arr_land0 c lab : (c < length g)%nat -> c <> 0%nat -> lab_arr (mkA (K c) (labelled c) false 0) lab ->
  arrive_lt P An lab false (S guard) (start c + length (sc_ev (code c))).
Proof.
  intros Hc Hc0 Hlab. destruct (code_of_ok g K h order P G L WR c Hc) as (x & s & C).
  destruct (parts c x s C) as (_ & Hs & _). destruct (aparts c Hc) as (_ & HA & _).
  pose proof (seq_ok c x s C Hc) as Hok.
  destruct (lens c Hc) as (Hl1 & Hl2).
  assert (Har: arrive_lt P An (K c) false (S (0 + length (W (sc_seq (code c))))) (start c + length (sc_ev (code c)))).
  { apply (head_arrive P An (K c) false 0 (ex c) (sc_seq (code c))); auto. intros E. unfold ex. rewrite E. simpl. lia. }
  apply (arrive_lt_weaken P An (K c) false false _ (S guard)) in Har; [|auto|lia].
  destruct Hlab as [E|(E & ->)]; [simpl in E; subst lab; auto|].
  simpl in E. unfold labelled in E. rewrite (co_x _ _ _ _ _ _ C) in E. apply negb_true_iff in E.
  assert (Hsq: exists w r, sc_seq (code c) = ILabel w :: r).
  { rewrite (code_seq c x s C). unfold pre_ins. rewrite E. simpl. eauto. }
  destruct Hsq as (w & r & Hsq). rewrite Hsq in *. specialize (HA 0%nat _ eq_refl). rewrite Nat.add_0_r in HA.
  destruct Har as (_ & Har). split; auto.
  eexists. split; [exact HA|]. split; [auto|]. unfold W in Hs. simpl in Hs. apply seg_cons in Hs. destruct Hs as (Hs & _).
  simpl in Hok. destruct Hok as (Hop & _). unfold is_fin, is_halt. rewrite Hs, Hop. right. right. auto.
Qed.

Definition short (x : vertex) : bool := (length (v_out x) =? 1)%nat && (v_label x =? NONE32) && negb (v_match x).

Lemma land_eq c x s : code_ok g h P c x s -> (c < length g)%nat ->
  land_of g h c < two32 /\
  N.to_nat (land_of g h c) = if short x then start (hd 0%nat (v_out x)) else (start c + length (sc_ev (code c)))%nat.
Proof.
  intros C Hc. unfold land_of, figureOutLanding, get. rewrite (co_x _ _ _ _ _ _ C). cbn [bind].
  fold (short x). destruct (short x) eqn:Esh.
  - assert (Hd: edge g c (hd 0%nat (v_out x))).
    { unfold edge. rewrite (edge_outs _ _ _ (co_x _ _ _ _ _ _ C)). unfold short in Esh.
      destruct (v_out x); [discriminate|]. left. auto. }
    destruct (edge_lt c _ Hd) as (Hl & _). destruct (sstart_start _ Hl) as (E1 & E2).
    destruct (ly_snip _ _ _ L _ Hl) as (x' & s' & _ & Es & _). unfold sstart in E1, E2. rewrite Es in *. cbn [bind res_or]. auto.
  - rewrite (co_s _ _ _ _ _ _ C). cbn [bind res_or].
    pose proof (co_evlen _ _ _ _ _ _ C) as He. unfold CodegenCode.evlen in He. rewrite (co_s _ _ _ _ _ _ C) in He.
    destruct (lens c Hc) as (H1 & H2). unfold CodegenCode.start in *. rewrite (co_s _ _ _ _ _ _ C) in *.
    pose proof (ly_bound _ _ _ L). unfold CodegenCode.guard in *. rewrite N.mod_small by lia. lia.
Qed.

Lemma arr_land v c : edge g v c -> arrive_lt P An (K v) false (S guard) (N.to_nat (land_of g h c)).
Proof.
  intros He. destruct (edge_lt v c He) as (Hc & Hc0). destruct (code_of_ok g K h order P G L WR c Hc) as (x & s & C).
  destruct (land_eq c x s C Hc) as (_ & ->). destruct (short x) eqn:Esh.
  - assert (Hd: edge g c (hd 0%nat (v_out x))).
    { unfold edge. rewrite (edge_outs _ _ _ (co_x _ _ _ _ _ _ C)). unfold short in Esh.
      destruct (v_out x); [discriminate|]. left. auto. }
    assert (EK: K c = K v).
    { destruct (lab_in v c He) as [E|(E & _)]; [exact E|]. simpl in E. unfold labelled in E. rewrite (co_x _ _ _ _ _ _ C) in E.
      unfold short in Esh. apply andb_true_iff in Esh. destruct Esh as (Esh & _). apply andb_true_iff in Esh. destruct Esh as (_ & Esh).
      rewrite Esh in E. discriminate. }
    rewrite <- EK. eapply arrive_lt_weaken; [| |apply arr_start; exact Hd]; [auto|lia].
  - apply arr_land0; auto. apply lab_in; auto.
Qed.

(** ** Jump tables *)

Lemma cs_ok_suffix lab base exit b : forall a m, cs_ok P An lab m base exit (a ++ b) ->
  b = [] \/ cs_ok P An lab (m || existsb is_match a) base exit b.
Proof.
  induction a as [|c a IH]; intros m H.
  - right. simpl. rewrite orb_false_r. auto.
  - assert (Hn: forall m', m' = m || is_match c -> cs_ok P An lab m' base exit (a ++ b) ->
       b = [] \/ cs_ok P An lab (m || existsb is_match (c :: a)) base exit b).
    { intros m' -> H'. apply IH in H'. simpl. rewrite orb_assoc. auto. }
    destruct c; cbn [app cs_ok] in H; try (apply (Hn m); [simpl; rewrite orb_false_r; auto|tauto]).
    + apply (Hn true); [simpl; rewrite orb_true_r; auto|tauto].
    + destruct H as (_ & _ & H). left. destruct a; [auto|discriminate].
    + destruct H as (_ & _ & [H|H]).
      * left. destruct a; [auto|discriminate].
      * apply (Hn m); [simpl; rewrite orb_false_r; auto|auto].
Qed.

Lemma pivot_length v tbl : pivotStates g v = Ok tbl -> length tbl = 256%nat.
Proof. intros H. apply pivot_loop_ok in H; [|apply repeat_length]. tauto. Qed.

Lemma nth_error_firstn' {A} (l : list A) : forall n k, (k < n)%nat -> nth_error (firstn n l) k = nth_error l k.
Proof.
  induction l as [|a l IH]; intros n k H; [rewrite firstn_nil; auto|].
  destruct n as [|n]; [lia|]. destruct k as [|k]; [auto|]. apply IH. lia.
Qed.

Lemma nth_error_skipn' {A} (l : list A) : forall n k, nth_error (skipn n l) k = nth_error l (n + k).
Proof.
  induction l as [|a l IH]; intros n k; [rewrite skipn_nil; destruct k, n; auto|].
  destruct n as [|n]; [auto|]. apply IH.
Qed.

Lemma cell_at v tbl f l k : pivotStates g v = Ok tbl -> (f <= l < 256)%nat -> (k < l + 1 - f)%nat ->
  nth_error (firstn (l + 1 - f) (skipn f tbl)) k =
  Some (fold_left dedup_add (filter (has_byte g (N.of_nat (f + k))) (outs g v)) []).
Proof.
  intros Hp Hfl Hk. rewrite <- (pivot_cell g v tbl (f + k) Hp) by lia. pose proof (pivot_length v tbl Hp) as Hl.
  rewrite nth_error_firstn', nth_error_skipn' by lia. apply nth_error_nth'. lia.
Qed.

Lemma cell_in v tbl f l c u : pivotStates g v = Ok tbl -> (f <= l < 256)%nat ->
  In c (firstn (l + 1 - f) (skipn f tbl)) -> In u c -> edge g v u.
Proof.
  intros Hp Hfl Hc Hu. apply In_nth_error in Hc. destruct Hc as (k & Hk).
  assert (Hlt: (k < l + 1 - f)%nat).
  { assert (k < length (firstn (l + 1 - f) (skipn f tbl)))%nat by (apply nth_error_Some; congruence).
    rewrite firstn_length in H. lia. }
  rewrite (cell_at v tbl f l k Hp Hfl Hlt) in Hk. injection Hk as <-.
  apply dedup_in in Hu. destruct Hu as [[]|Hu]. apply filter_In in Hu. apply Hu.
Qed.

Lemma land_lt c : (c < length g)%nat -> land_of g h c < two32.
Proof. intros Hc. destruct (code_of_ok g K h order P G L WR c Hc) as (x & s & C). apply (land_eq c x s C Hc). Qed.

Lemma ind_ok v tbl f l ind t i exit : pivotStates g v = Ok tbl -> (f <= l < 256)%nat ->
  jc g h (firstn (l + 1 - f) (skipn f tbl)) ind = (t, i) ->
  i = [] \/ cs_ok P An (K v) false (S guard) exit i.
Proof.
  intros Hp Hfl Hj. apply (jc_in _ _ _ _ _ _ Hj (fun i => i = [] \/ cs_ok P An (K v) false (S guard) exit i)); auto.
  intros c r Hc Hl Hr. right. apply cs_ok_ind; auto.
  - destruct c; simpl in *; [lia|discriminate].
  - intros a Ha. apply in_map_iff in Ha. destruct Ha as (u & <- & Hu).
    pose proof (cell_in v tbl f l c u Hp Hfl Hc Hu) as He. destruct (edge_lt v u He).
    split; [apply land_lt; auto|]. eapply arrive_lt_weaken; [| |apply arr_land; exact He]; [auto|lia].
Qed.

Lemma jt_at v x s w f l t i : code_ok g h P v x s -> (v < length g)%nat ->
  sc_jt (code v) = Some (mkJT w f l t i) ->
  nth_error (p_words P) (ex v) = Some w /\ seg (p_words P) (ex v + 1) t /\
  seg (p_words P) (ex v + 1 + length t) (W i) /\ An (ex v) = Some (mkA (K v) false false 0) /\
  agrees An (ex v + 1 + length t) (aseq (K v) false (S guard) i).
Proof.
  intros C Hv Ej. destruct (parts v x s C) as (_ & _ & Hs). destruct (aparts v Hv) as (_ & _ & Ha).
  unfold ajt in Ha. rewrite Ej in Hs, Ha. cbn [jt_words jt_head jt_table jt_ind] in Hs, Ha.
  apply seg_cons in Hs. destruct Hs as (H1 & Hs). apply seg_app in Hs. destruct Hs as (H2 & H3).
  split; auto. split; auto. split; auto. split.
  - specialize (Ha 0%nat _ eq_refl). rewrite Nat.add_0_r in Ha. auto.
  - intros k a Hk. replace (ex v + 1 + length t + k)%nat with (ex v + (1 + length t + k))%nat by lia. apply Ha.
    change (1 + length t + k)%nat with (S (length t + k)). cbn [nth_error].
    rewrite nth_error_app2 by (rewrite repeat_length; lia). rewrite repeat_length.
    replace (length t + k - length t)%nat with k by lia. auto.
Qed.

Lemma ind_ne (c : list nat) : c <> [] -> ind_ins (map (land_of g h) c) <> [].
Proof. destruct c as [|u c]; [easy|]. intros _ H. apply app_eq_nil in H. destruct H. discriminate. Qed.

Lemma W_pos cs : cs <> [] -> (0 < length (W cs))%nat.
Proof. destruct cs as [|c r]; [easy|]. intros _. unfold W. simpl. rewrite app_length. pose proof (ins_words_pos c). lia. Qed.

(** The entry of a jump table for a byte. *)
Lemma jt_entry v x s w f l t i b : code_ok g h P v x s -> (v < length g)%nat ->
  sc_jt (code v) = Some (mkJT w f l t i) ->
  (exists tbl, pivotStates g v = Ok tbl /\ (f <= l < 256)%nat /\
    jc g h (firstn (l + 1 - f) (skipn f tbl)) (N.of_nat (ex v) + 2 + N.of_nat (l - f)) = (t, i)) ->
  (f <= b <= l)%nat ->
  exists e, nth_error (p_words P) (ex v + 1 + (b - f)) = Some e /\
   match fold_left dedup_add (filter (has_byte g (N.of_nat b)) (outs g v)) [] with
   | [] => e = 0
   | [u] => e = land_of g h u
   | c => exists r, (forall exit, cs_ok P An (K v) false (S guard) exit (ind_ins (map (land_of g h) c) ++ r)) /\
            seg (p_words P) (N.to_nat e) (W (ind_ins (map (land_of g h) c) ++ r)) /\
            agrees An (N.to_nat e) (aseq (K v) false (S guard) (ind_ins (map (land_of g h) c) ++ r)) /\ (ex v < N.to_nat e)%nat
   end.
Proof.
  intros C Hv Ej (tbl & Hp & Hfl & Hj) Hb.
  destruct (jt_at v x s w f l t i C Hv Ej) as (_ & Ht & Hi & _ & Ha).
  destruct (jc_spec g h _ _ _ _ Hj) as (Hlt & Hsp).
  pose proof (pivot_length v tbl Hp) as Hl.
  rewrite firstn_length, skipn_length, Hl in Hlt.
  assert (Hcell := cell_at v tbl f l (b - f) Hp Hfl ltac:(lia)).
  replace (f + (b - f))%nat with b in Hcell by lia.
  destruct (Hsp _ _ Hcell) as (e & He & Hee). exists e. split; [apply Ht; auto|].
  assert (Hed: forall u, In u (fold_left dedup_add (filter (has_byte g (N.of_nat b)) (outs g v)) []) -> edge g v u).
  { intros u Hu. apply (cell_in v tbl f l _ u Hp Hfl (nth_error_In _ _ Hcell) Hu). }
  destruct (fold_left dedup_add (filter (has_byte g (N.of_nat b)) (outs g v)) []) as [|u [|u2 c]]; auto.
  - rewrite Hee. apply N.mod_small, land_lt. apply (edge_lt v u). apply Hed. left; auto.
  - destruct Hee as (is1 & is2 & Ei & ->). exists is2.
    assert (Hok: forall exit, cs_ok P An (K v) false (S guard) exit (ind_ins (map (land_of g h) (u :: u2 :: c)) ++ is2)).
    { intros exit. destruct (ind_ok v tbl f l _ t i exit Hp Hfl Hj) as [E0|E0].
      - exfalso. rewrite Ei in E0. apply app_eq_nil in E0. destruct E0 as (_ & E0). apply app_eq_nil in E0. destruct E0 as (E0 & _).
        apply ind_ne in E0; [auto|discriminate].
      - rewrite Ei in E0. apply cs_ok_suffix in E0. destruct E0 as [E0|E0].
        + exfalso. apply app_eq_nil in E0. destruct E0 as (E0 & _).
          apply ind_ne in E0; [auto|discriminate].
        + pose proof (jc_no_match g h _ _ _ _ Hj) as Hm. rewrite Ei, existsb_app in Hm. apply orb_false_iff in Hm. destruct Hm as (Hm & _).
          rewrite Hm in E0. exact E0. }
    assert (Hlens: (length (W i) + length t + 1 + ex v <= guard)%nat).
    { destruct (lens v Hv) as (Hl1 & Hl2). rewrite Ej in Hl1. cbn [jt_words jt_head jt_table jt_ind] in Hl1.
      simpl length in Hl1. rewrite app_length in Hl1. unfold ex. lia. }
    assert (Hpos: (0 < length (W (ind_ins (map (land_of g h) (u :: u2 :: c)))))%nat).
    { apply W_pos, ind_ne. discriminate. }
    rewrite Ei in Hi, Ha. rewrite W_app in Hi. apply seg_app in Hi. destruct Hi as (_ & Hi).
    destruct (aseq_app (K v) (S guard) (ind_ins (map (land_of g h) (u :: u2 :: c)) ++ is2) is1 false) as (p & Hpl & Hpe).
    rewrite Hpe in Ha. apply agrees_app in Ha. destruct Ha as (_ & Ha). rewrite Hpl in Ha.
    pose proof (jc_no_match g h _ _ _ _ Hj) as Hm. rewrite Ei, existsb_app in Hm. apply orb_false_iff in Hm. destruct Hm as (Hm & _).
    rewrite Hm in Ha. change (false || false) with false in Ha.
    rewrite Ei, !W_app, !app_length in Hlens.
    pose proof (ly_bound _ _ _ L) as Hbd.
    assert (Haddr: N.to_nat ((N.of_nat (ex v) + 2 + N.of_nat (l - f) + N.of_nat (length (W is1))) mod two32) = (ex v + 1 + length t + length (W is1))%nat).
    { rewrite N.mod_small; [lia|]. unfold CodegenCode.guard in Hlens. lia. }
    rewrite Haddr. split; auto. split; auto. split; auto. lia.
Qed.

Lemma jt_instr v x s w f l t i : code_ok g h P v x s -> (v < length g)%nat -> sn_jt s = true ->
  sc_jt (code v) = Some (mkJT w f l t i) -> instr_ok P An (ex v) (mkA (K v) false false 0) w.
Proof.
  intros C Hv Hjt Ej.
  destruct (jt_head_ok v x s C Hjt) as (tbl & f' & l' & w' & t' & i' & Hp & Hmm & Hfl & Ej' & Ho & Hf & Hl & Hj).
  rewrite Ej in Ej'. injection Ej' as <- <- <- <- <-.
  unfold instr_ok. rewrite Ho, Hf, Hl. intros b Hb1 Hb2.
  destruct (jt_entry v x s w f l t i (N.to_nat b) C Hv Ej) as (e & He1 & He2); [exists tbl; auto|lia|].
  exists e. split; [rewrite <- He1; f_equal; lia|].
  assert (Hed: forall u, In u (fold_left dedup_add (filter (has_byte g (N.of_nat (N.to_nat b))) (outs g v)) []) -> edge g v u).
  { intros u Hu. apply dedup_in in Hu. destruct Hu as [[]|Hu]. apply filter_In in Hu. apply Hu. }
  destruct (fold_left dedup_add (filter (has_byte g (N.of_nat (N.to_nat b))) (outs g v)) []) as [|u [|u2 c]]; auto.
  - right. rewrite He2. intros lab [E|(E & _)]; [|discriminate]. simpl in E. subst lab.
    apply (arr_land v u). apply Hed. left; auto.
  - right. destruct He2 as (r & R1 & R2 & R3 & _). intros lab [E|(E & _)]; [|discriminate]. simpl in E. subst lab.
    apply (head_arrive P An (K v) false (S guard) 0 _ (N.to_nat e) (R1 0%nat) R3 R2).
    intros E. apply app_eq_nil in E. destruct E as (E & _). exfalso. apply (ind_ne (u :: u2 :: c)); [discriminate|]. exact E.
Qed.

(** ** The program is well-formed *)

(** Where an annotated word is. *)
Lemma An_cases pc a : An pc = Some a ->
  (exists v x s, (v < length g)%nat /\ code_ok g h P v x s /\
     ((v <> 0%nat /\ pc = start v /\ a = mkA (K v) (labelled v) false 0) \/
      (exists i, nth_error (aseq (K v) false 0 (sc_seq (code v))) i = Some (Some a) /\ pc = (start v + length (sc_ev (code v)) + i)%nat) \/
      (exists w f l t i, sn_jt s = true /\ sc_jt (code v) = Some (mkJT w f l t i) /\
         ((pc = ex v /\ a = mkA (K v) false false 0) \/
          (exists k, nth_error (aseq (K v) false (S guard) i) k = Some (Some a) /\ pc = (ex v + 1 + length t + k)%nat))))) \/
  (pc = guard /\ a = mkA NOLABEL false false 0) \/ (pc = (guard + 1)%nat /\ a = mkA NOLABEL false true 0).
Proof.
  intros H. apply An_inv in H. destruct H as [(v & i & Hv & Hi & ->)|H]; [left|right; exact H].
  destruct (code_of_ok g K h order P G L WR v Hv) as (x & s & C). exists v, x, s. split; auto. split; auto.
  unfold acode in Hi. destruct (lt_dec i (length (aev v))) as [Hlt|Hge].
  - left. rewrite nth_error_app1 in Hi by auto. unfold aev in Hi.
    destruct (Nat.eq_dec v 0) as [E0|E0].
    + pose proof (co_ev _ _ _ _ _ _ C) as Hev. subst v. simpl in Hev. unfold aev in Hlt. rewrite Hev in Hlt. simpl in Hlt. lia.
    + split; auto. destruct (ev_cons v x s C E0) as (t & w & r & _ & E & _). rewrite E in Hi.
      destruct i as [|i]; [|exfalso; eapply nth_error_repeat_none; exact Hi]. simpl in Hi. injection Hi as <-. split; auto; lia.
  - right. rewrite nth_error_app2 in Hi by lia. rewrite aev_length in *.
    destruct (lt_dec (i - length (sc_ev (code v))) (length (W (sc_seq (code v))))) as [Hlt|Hge2].
    + left. rewrite nth_error_app1 in Hi by (rewrite aseq_length; auto). eexists. split; [exact Hi|]. lia.
    + right. rewrite nth_error_app2 in Hi by (rewrite aseq_length; lia). rewrite aseq_length in Hi.
      unfold ajt in Hi. destruct (sn_jt s) eqn:Ej.
      2:{ assert (En: sc_jt (code v) = None) by (rewrite (co_code _ _ _ _ _ _ C); cbn [sc_jt]; rewrite Ej; auto).
          rewrite En in Hi. destruct (i - length (sc_ev (code v)) - length (W (sc_seq (code v))))%nat; discriminate. }
      destruct (sc_jt (code v)) as [[w f l t j]|] eqn:Ejt.
      2:{ destruct (i - length (sc_ev (code v)) - length (W (sc_seq (code v))))%nat; discriminate. }
      exists w, f, l, t, j. split; auto. split; auto. cbn [jt_table jt_ind] in Hi.
      destruct (i - length (sc_ev (code v)) - length (W (sc_seq (code v))))%nat as [|k] eqn:Ek.
      * left. simpl in Hi. injection Hi as <-. split; auto. unfold ex. lia.
      * right. change (nth_error (repeat None (length t) ++ aseq (K v) false (S guard) j) k = Some (Some a)) in Hi.
        destruct (lt_dec k (length t)) as [Hk|Hk].
        -- rewrite nth_error_app1 in Hi by (rewrite repeat_length; auto). exfalso. eapply nth_error_repeat_none; exact Hi.
        -- rewrite nth_error_app2 in Hi by (rewrite repeat_length; lia). rewrite repeat_length in Hi.
           eexists. split; [exact Hi|]. unfold ex. lia.
Qed.

Lemma uniq_split {A} (p : A -> bool) d l2 : forall l1 cs1 c cs2, l1 ++ d :: l2 = cs1 ++ c :: cs2 -> p c = true ->
  existsb p l1 = false -> existsb p l2 = false -> cs1 = l1 /\ c = d.
Proof.
  induction l1 as [|a l1 IH]; intros cs1 c cs2 H Hc H1 H2; destruct cs1 as [|b cs1]; simpl in H; injection H as E1 E2.
  - auto.
  - exfalso. subst l2. rewrite existsb_app in H2. simpl in H2. rewrite Hc in H2. rewrite orb_true_r in H2. discriminate.
  - subst a. simpl in H1. rewrite Hc in H1. discriminate.
  - subst b. simpl in H1. apply orb_false_iff in H1. destruct (IH _ _ _ E2 Hc (proj2 H1) H2) as (-> & ->). auto.
Qed.

Definition is_check (i : ins) : bool := match i with ICheck _ => true | _ => false end.

Lemma no_check_ind ls : existsb is_check (ind_ins ls) = false.
Proof.
  destruct ls as [|l r]; auto. unfold ind_ins. rewrite existsb_app. simpl. rewrite orb_false_r.
  induction (rev r); auto.
Qed.

Lemma check_split v x s cs1 w cs2 : pre_ins h x s ++ out_ins h v x s = cs1 ++ ICheck w :: cs2 ->
  sn_check s <> NONE32 /\ w = res_or (makeCheckHalt (sn_check s)) 0 /\ length (W cs1) = if v_label x =? NONE32 then 0%nat else 1%nat.
Proof.
  unfold pre_ins. rewrite <- !app_assoc. intros H.
  assert (Ho: existsb is_check ((if v_match x then IMatch :: match v_out x with [] => [IFin] | _ => [IFork ((h_guard h + 1) mod two32)] end else [])
     ++ out_ins h v x s) = false).
  { rewrite existsb_app. apply orb_false_iff. split.
    - destruct (v_match x); auto. destruct (v_out x); auto.
    - unfold out_ins. destruct (sn_jt s); auto. destruct (v_out x) as [|c r]; auto. rewrite existsb_app. apply orb_false_iff. split.
      + induction (rev (map (sstart h) r)); auto.
      + destruct (follows h v c); auto. }
  assert (Hl: existsb is_check (if v_label x =? NONE32 then [] else [ILabel (res_or (makeLabel (v_label x)) 0)]) = false)
    by (destruct (v_label x =? NONE32); auto).
  destruct (N.eqb_spec (sn_check s) NONE32) as [E|E].
  - exfalso. simpl app in H.
    assert (Hx: existsb is_check (cs1 ++ ICheck w :: cs2) = false) by (rewrite <- H, existsb_app, Hl, Ho; auto).
    rewrite existsb_app in Hx. simpl in Hx. rewrite orb_true_r in Hx. discriminate.
  - split; auto. cbn [app] in H.
    destruct (uniq_split is_check _ _ _ _ _ _ H eq_refl Hl Ho) as (-> & E2). injection E2 as ->. split; auto.
    destruct (v_label x =? NONE32); auto.
Qed.

Theorem compiled_wf : wf P An (2 * guard + 3).
Proof.
  assert (Hex: forall v, (start v + length (sc_ev (code v)) + length (W (sc_seq (code v))))%nat = ex v) by reflexivity.
  assert (Hind: forall v x s w f l t i k a, (v < length g)%nat -> code_ok g h P v x s -> sn_jt s = true ->
      sc_jt (code v) = Some (mkJT w f l t i) -> nth_error (aseq (K v) false (S guard) i) k = Some (Some a) ->
      a_lab a = K v /\ (a_rk a <= S guard + length (W i))%nat /\ (length (W i) <= guard)%nat /\
      exists w, nth_error (p_words P) (ex v + 1 + length t + k) = Some w /\ instr_ok P An (ex v + 1 + length t + k) a w /\
        w_op w <> OpCheckHalt).
  { intros v x s w f l t i k a Hv C Hjt Ej Hk.
    destruct (jt_at v x s w f l t i C Hv Ej) as (_ & _ & Hs & _ & Ha).
    destruct (jt_head_ok v x s C Hjt) as (tbl & f' & l' & w' & t' & i' & Hp & Hmm & Hfl & Ej' & Ho & Hf & Hl & Hj).
    rewrite Ej in Ej'. injection Ej' as <- <- <- <- <-.
    destruct (ind_ok v tbl f l _ t i (ex v + 1 + length t + length (W i))%nat Hp Hfl Hj) as [->|Hok]; [destruct k; discriminate|].
    destruct (seq_instr P An (K v) (S guard) _ (K_lab_ok v Hv) i false (ex v + 1 + length t) Hok Ha Hs eq_refl k a Hk) as (R1 & R2 & w2 & R3 & R4 & R5).
    split; auto. split; auto. split.
    { destruct (lens v Hv) as (Hl1 & Hl2). rewrite Ej in Hl1. cbn [jt_words jt_head jt_table jt_ind] in Hl1.
      simpl length in Hl1. rewrite app_length in Hl1. lia. }
    exists w2. split; auto. split; auto. intros Hc. destruct (R5 Hc) as (cs1 & cs2 & E & _).
    assert (Hn: existsb is_check i = false).
    { apply (jc_in _ _ _ _ _ _ Hj (fun i => existsb is_check i = false)); auto.
      intros c i0 _ _ Hi0. rewrite existsb_app, Hi0, orb_false_r. apply no_check_ind. }
    rewrite E, existsb_app in Hn. simpl in Hn. rewrite orb_true_r in Hn. discriminate. }
  assert (Hseq: forall v x s i a, (v < length g)%nat -> code_ok g h P v x s -> nth_error (aseq (K v) false 0 (sc_seq (code v))) i = Some (Some a) ->
      a_lab a = K v /\ (a_rk a <= 0 + length (W (sc_seq (code v))))%nat /\
      exists w, nth_error (p_words P) (start v + length (sc_ev (code v)) + i) = Some w /\
        instr_ok P An (start v + length (sc_ev (code v)) + i) a w /\
        (w_op w = OpCheckHalt -> exists cs1 cs2, sc_seq (code v) = cs1 ++ ICheck w :: cs2 /\ i = length (W cs1))).
  { intros v x s i a Hv C Hi. destruct (parts v x s C) as (_ & Hs & _). destruct (aparts v Hv) as (_ & Ha & _).
    apply (seq_instr P An (K v) 0 (ex v) (K_lab_ok v Hv) (sc_seq (code v)) false _ (seq_ok v x s C Hv) Ha Hs eq_refl i a Hi). }
  assert (Hchk: forall pc a w, An pc = Some a -> nth_error (p_words P) pc = Some w -> w_op w = OpCheckHalt ->
     exists v x s, code_ok g h P v x s /\ sn_check s <> NONE32 /\ w_off w = sn_check s /\
       pc = (start v + length (sc_ev (code v)) + (if (v_label x =? NONE32)%N then 0 else 1))%nat).
  { intros pc a w Ha Hw Hop. destruct (An_cases pc a Ha) as [(v & x & s & Hv & C & [(H1 & -> & _)|[(i & H1 & ->)|(w' & f & l & t & i & H1 & H2 & H3)]])|[(-> & _)|(-> & _)]].
    - destruct (ev_cons v x s C H1) as (t & w' & r & _ & _ & Hb & _ & _ & Hw' & _). rewrite Hw in Hw'. injection Hw' as <-. rewrite Hop in Hb. discriminate.
    - destruct (Hseq v x s i a Hv C H1) as (_ & _ & w' & Hw' & _ & Hc). rewrite Hw in Hw'. injection Hw' as <-.
      destruct (Hc Hop) as (cs1 & cs2 & E & ->). rewrite (code_seq v x s C) in E. apply check_split in E. destruct E as (E1 & E2 & E3).
      exists v, x, s. split; auto. split; auto. split; [|lia]. subst w.
      apply (makeCheck_ok _ _ (co_chk _ _ _ _ _ _ C E1)).
    - exfalso. destruct H3 as [(-> & _)|(k & H3 & ->)].
      + destruct (jt_head_ok v x s C H1) as (tbl & f' & l' & w2 & t' & i' & _ & _ & _ & Ej' & Ho & _).
        rewrite H2 in Ej'. injection Ej' as <- <- <- <- <-.
        destruct (jt_at v x s _ _ _ _ _ C Hv H2) as (Hw' & _). rewrite Hw in Hw'. injection Hw' as <-. rewrite Hop in Ho. discriminate.
      + destruct (Hind v x s w' f l t i k a Hv C H1 H2 H3) as (_ & _ & _ & w2 & Hw2 & _ & Hn). rewrite Hw in Hw2. injection Hw2 as <-. contradiction.
    - rewrite (wr_halt _ _ _ _ WR) in Hw. injection Hw as <-. discriminate.
    - rewrite (wr_finish _ _ _ _ WR) in Hw. injection Hw as <-. discriminate. }
  constructor.
  - rewrite (wr_len _ _ _ _ WR). lia.
  - rewrite (wr_maxLabel _ _ _ _ WR). pose proof (ly_maxLabel _ _ _ L). unfold NONE32, two32 in *. lia.
  - rewrite (wr_maxCheck _ _ _ _ WR). pose proof (ly_maxCheck _ _ _ L). pose proof (ly_len _ _ _ L). lia.
  - unfold progEnd. rewrite (wr_len _ _ _ _ WR). replace (guard + 2 - 2)%nat with guard by lia.
    unfold is_halt. rewrite (wr_halt _ _ _ _ WR). reflexivity.
  - intros pc a Ha. destruct (An_cases pc a Ha) as [(v & x & s & Hv & C & HC)|[(-> & ->)|(-> & ->)]].
    + destruct (lens v Hv) as (Hl1 & Hl2). destruct HC as [(H1 & -> & ->)|[(i & H1 & ->)|(w' & f & l & t & i & H1 & H2 & H3)]].
      * destruct (ev_cons v x s C H1) as (t & w & r & _ & E & Hb & _ & _ & Hw & Hlen).
        split; [apply K_lab_ok; auto|]. split; [simpl; lia|]. exists w. split; auto.
        assert (Hall: arrive_all P An (mkA (K v) (labelled v) false 0) false (start v + length (sc_ev (code v)))).
        { intros lab Hlab. apply (arr_land0 v lab Hv H1 Hlab). }
        rewrite Hlen in Hall. unfold instr_ok. destruct (w_op w); try discriminate; auto.
        split; auto. rewrite (wr_len _ _ _ _ WR). lia.
      * destruct (Hseq v x s i a Hv C H1) as (R1 & R2 & w & Hw & Hi & _). rewrite R1. split; [apply K_lab_ok; auto|].
        split; [lia|]. exists w. auto.
      * destruct H3 as [(-> & ->)|(k & H3 & ->)].
        -- split; [apply K_lab_ok; auto|]. split; [simpl; lia|]. exists w'. split; [apply (jt_at v x s _ _ _ _ _ C Hv H2)|].
           apply (jt_instr v x s w' f l t i C Hv H1 H2).
        -- destruct (Hind v x s w' f l t i k a Hv C H1 H2 H3) as (R1 & R2 & R3 & w2 & Hw2 & Hi2 & _). rewrite R1. split; [apply K_lab_ok; auto|].
           split; [lia|]. exists w2. auto.
    + split; [left; auto|]. split; [simpl; lia|]. exists makeHalt. split; [apply (wr_halt _ _ _ _ WR)|]. exact I.
    + split; [left; auto|]. split; [simpl; lia|]. exists makeFinish. split; [apply (wr_finish _ _ _ _ WR)|]. reflexivity.
  - intros pc1 pc2 a1 a2 w1 w2 Ha1 Ha2 Hw1 Hw2 Ho1 Ho2 Heq.
    destruct (Hchk pc1 a1 w1 Ha1 Hw1 Ho1) as (v1 & x1 & s1 & C1 & N1 & O1 & ->).
    destruct (Hchk pc2 a2 w2 Ha2 Hw2 Ho2) as (v2 & x2 & s2 & C2 & N2 & O2 & ->).
    assert (E: v1 = v2).
    { apply (ly_checks _ _ _ L v1 v2 s1 s2 (co_s _ _ _ _ _ _ C1) (co_s _ _ _ _ _ _ C2) N1). congruence. }
    subst v2. pose proof (co_x _ _ _ _ _ _ C1) as X1. rewrite (co_x _ _ _ _ _ _ C2) in X1. injection X1 as <-. auto.
Qed.
End Prog.
