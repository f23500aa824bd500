(** mergeIntoFSM: what the automaton accepts afterwards, and what it prefers for the old keywords. *)
From Verif Require Import Base NfaModel VmModel CodegenSpec Thm_Codegen BuildModel BuildProofs OptModel OptSpec OptPrune OptMerge.
Open Scope nat_scope.

(** In automata whose match states are the ones with a label, the label inherited does not matter. *)
Lemma best_lab g l : (forall v x, nth_error g v = Some x -> (v_match x = true <-> v_label x <> NOLABEL)) ->
  forall w v pos lab lab', best g l lab w v pos = best g l lab' w v pos.
Proof.
  intros ML. induction w as [|b w IH]; intros v pos lab lab'; cbn [best]; destruct (nth_error g v) as [x|] eqn:E; auto; pose proof (ML v x E) as Q.
  - destruct (N.eqb_spec (v_label x) NOLABEL) as [L|L]; auto. destruct (v_match x); auto. destruct Q as (Q & _). destruct Q; auto.
  - rewrite (first_some_ext _ (fun c => if enters g c b then best g l (if (v_label x =? NOLABEL)%N then lab' else v_label x) w c (pos + 1) else None))
      by (intros c _; destruct (enters g c b); auto).
    destruct (first_some _ _); auto. destruct (N.eqb_spec (v_label x) NOLABEL) as [L|L]; auto. destruct (v_match x); auto. destruct Q as (Q & _). destruct Q; auto.
Qed.

(** States from which no match state of the keyword is reached *)
Lemma best_none g l (D : nat -> Prop) : (forall v x, nth_error g v = Some x -> (v_match x = true <-> v_label x <> NOLABEL)) ->
  (forall v, D v -> mat g v = true -> lbl g v <> l) -> (forall v c, D v -> In c (outs g v) -> D c) ->
  forall w v pos lab, D v -> best g l lab w v pos = None.
Proof.
  intros ML HM HC. induction w as [|b w IH]; intros v pos lab Hv; cbn [best]; destruct (nth_error g v) as [x|] eqn:E; auto.
  - specialize (HM v Hv). unfold mat, lbl in HM. rewrite E in HM. pose proof (ML v x E). destruct (v_match x); auto. simpl.
    destruct (N.eqb_spec (v_label x) NOLABEL); [tauto|]. destruct (N.eqb_spec (v_label x) l); auto. destruct HM; auto.
  - replace (first_some _ (v_out x)) with (@None N).
    + specialize (HM v Hv). unfold mat, lbl in HM. rewrite E in HM. pose proof (ML v x E). destruct (v_match x); auto. simpl.
      destruct (N.eqb_spec (v_label x) NOLABEL); [tauto|]. destruct (N.eqb_spec (v_label x) l); auto. destruct HM; auto.
    + assert (Q : forall c, In c (v_out x) -> D c) by (intros c Hc; apply (HC v); auto; unfold outs; rewrite E; auto).
      induction (v_out x) as [|c r IHr]; simpl; auto. rewrite IH by (apply Q; left; auto). destruct (enters g c b); apply IHr; intros; apply Q; right; auto.
Qed.

Lemma first_some_filter {A B} (f : A -> option B) (k : A -> bool) l : (forall a, In a l -> k a = false -> f a = None) -> first_some f l = first_some f (filter k l).
Proof.
  induction l as [|a l IH]; intros H; simpl; auto. rewrite IH by (intros; apply H; auto; right; auto). destruct (k a) eqn:E; [auto|]. rewrite (H a) by (simpl; auto). auto.
Qed.

Section Done.
Variables (dst0 src : nfa) (label : N).
Hypothesis D0 : fsm_ok dst0.
Hypothesis S0 : fsm_ok src.
Hypothesis R0 : forall v, v < length dst0 -> reach dst0 v.
Hypothesis SL : labels_in src (fun l => l = label).
Hypothesis FL : forall v, lbl dst0 v <> label.
Hypothesis LL : label <> NOLABEL.
Variable s : merge.
Hypothesis M : minv dst0 src s [].
Let g := m_dst s.
Let n0 := length dst0.
Let G : fsm_ok g := done_ok dst0 src D0 S0 R0 s M.

Lemma enters_im p d b : p <> 0 -> im s p d -> enters g d b = enters src p b.
Proof. intros Hp I. destruct (mi_im _ _ _ _ M p d I Hp) as (H0 & _ & H & _). rewrite (enters_bts g d b G H0), (enters_bts src p b S0 Hp). fold g in H. rewrite H. auto. Qed.

Lemma im0 p : im s p 0 -> p = 0.
Proof. intros I. destruct (Nat.eq_dec p 0); auto. destruct (mi_im _ _ _ _ M p 0 I); auto. congruence. Qed.
Lemma im0' d : im s 0 d -> d = 0.
Proof. intros I. pose proof (mi_im0 _ _ _ _ M) as I0. unfold im in *. congruence. Qed.

Lemma im_edge p c d : im s p d -> In c (outs src p) -> exists e, im s c e /\ In e (outs g d).
Proof.
  intros I Hc. destruct (In_nth_error _ _ Hc) as (i & Hi). destruct (mi_all _ _ _ _ M p d i I) as [V|[]]; [apply nth_error_Some; congruence|].
  destruct (mi_vis _ _ _ _ M p i V) as (c' & dh & dc & E1 & E2 & E3 & E4). rewrite Hi in E1. injection E1 as <-. unfold im in *. rewrite I in E2. injection E2 as <-. exists dc. auto.
Qed.

Lemma path_into w p : path src 0 w p -> exists d, im s p d /\ path g 0 w d.
Proof.
  intros H. induction H as [|w u b d H (e & I & IH) Hd Hb]; [exists 0; split; [apply (mi_im0 _ _ _ _ M)|constructor]|].
  destruct (im_edge u d e I Hd) as (f & If & Hf). exists f. split; auto. eapply path_snoc; eauto. rewrite (enters_im d f); auto. apply (edge_bounds src u d S0 Hd).
Qed.

Lemma path_back w d : path g 0 w d -> forall p, im s p d -> path src 0 w p.
Proof.
  intros H. induction H as [|w u b d H IH Hd Hb]; intros p I.
  - apply im0 in I as ->. constructor.
  - assert (Hp : p <> 0). { intros ->. apply im0' in I as ->. apply (edge_bounds g u 0 G) in Hd. tauto. }
    destruct (mi_J _ _ _ _ M p d u Hp I Hd) as (q & Hq & Iq). eapply path_snoc; eauto. rewrite <- (enters_im p d); auto.
Qed.

Lemma path_old w d : path g 0 w d -> d < n0 -> path dst0 0 w d.
Proof.
  intros H. induction H as [|w u b d H IH Hd Hb]; intros HL; [constructor|].
  assert (Hu : u < n0). { destruct (Nat.lt_ge_cases u n0) as [|HO]; auto. apply (mi_newfrom _ _ _ _ M u d HO) in Hd. fold n0 in Hd. lia. }
  eapply path_snoc; [apply IH; auto| |].
  - rewrite <- (mi_filter _ _ _ _ M u Hu). apply filter_In. split; auto. apply Nat.ltb_lt; auto.
  - rewrite <- (enters_attrs dst0 g d); auto. apply (mi_attr _ _ _ _ M). auto.
Qed.

Lemma path_kept w d : path dst0 0 w d -> path g 0 w d.
Proof.
  intros H. induction H as [|w u b d H IH Hd Hb]; [constructor|].
  assert (Hu : u < n0) by (apply outs_in in Hd; auto). assert (HL : d < n0) by (eapply sym_bounded; eauto; apply D0).
  eapply path_snoc; eauto.
  - rewrite <- (mi_filter _ _ _ _ M u Hu) in Hd. apply filter_In in Hd. apply Hd.
  - rewrite (enters_attrs dst0 g d); auto. apply (mi_attr _ _ _ _ M). auto.
Qed.

Lemma old_lbl d : d < n0 -> lbl g d = lbl dst0 d /\ mat g d = mat dst0 d.
Proof. intros H. pose proof (mi_attr _ _ _ _ M d H) as A. rewrite (lbl_attrs dst0), (mat_attrs dst0) by auto. auto. Qed.

Lemma new_lbl d : n0 <= d < length g -> lbl g d = NOLABEL \/ lbl g d = label.
Proof. intros H. destruct (mi_new _ _ _ _ M d H) as (p & Hp & I & _). destruct (mi_im _ _ _ _ M p d I Hp) as (_ & _ & _ & E & _). fold g in E. rewrite E. apply SL. Qed.

Lemma mat_lt h v : mat h v = true -> v < length h.
Proof. unfold mat. destruct (nth_error h v) eqn:E; [|discriminate]. intros _. apply nth_error_Some. congruence. Qed.

Lemma done_language l w : matches g l w <-> (l <> label /\ matches dst0 l w) \/ (l = label /\ matches src label w).
Proof.
  unfold matches. rewrite !accepts_path by (apply G || apply D0 || apply S0). split.
  - intros (d & H & HM & HL). pose proof (mat_lt _ _ HM) as DL. destruct (Nat.lt_ge_cases d n0) as [HO|HO].
    + left. destruct (old_lbl d HO) as (E1 & E2). rewrite E1 in HL. rewrite E2 in HM. split; [intros ->; apply (FL d); auto|]. exists d. split; auto. apply path_old; auto.
    + right. destruct (new_lbl d (conj HO DL)) as [E|E]; [apply (match_label g d G) in HM; congruence|]. split; [congruence|].
      destruct (mi_new _ _ _ _ M d (conj HO DL)) as (p & Hp & I & _). destruct (mi_im _ _ _ _ M p d I Hp) as (_ & _ & _ & E1 & E2). fold g in E1, E2. exists p. split; [eapply path_back; eauto|]. split; congruence.
  - intros [(Hl & d & H & HM & HL)|(-> & p & H & HM & HL)].
    + pose proof (mat_lt _ _ HM) as DL. destruct (old_lbl d DL) as (E1 & E2). exists d. split; [apply path_kept; auto|]. split; congruence.
    + destruct (path_into w p H) as (d & I & Hd). assert (Hp : p <> 0). { intros ->. destruct (fk_root _ S0) as (x & E & _ & Mx & _). unfold mat in HM. rewrite E in HM. congruence. }
      destruct (mi_im _ _ _ _ M p d I Hp) as (_ & _ & _ & E1 & E2). fold g in E1, E2. exists d. split; auto. split; congruence.
Qed.

(** The old keywords keep their preferred matches. *)
Lemma done_best_old l : l <> label -> forall w v pos lab, v < n0 -> best g l lab w v pos = best dst0 l lab w v pos.
Proof.
  intros Hl. assert (NN : forall w v pos lab, n0 <= v -> best g l lab w v pos = None).
  { intros w v pos lab Hv. apply (best_none g l (fun v => n0 <= v)); auto; [apply G| |].
    - intros u Hu HM HL. pose proof (mat_lt _ _ HM). destruct (new_lbl u) as [E|E]; auto; [apply (match_label g u G) in HM; congruence|congruence].
    - intros u c Hu Hc. eapply (mi_newfrom _ _ _ _ M); eauto. }
  induction w as [|b w IH]; intros v pos lab Hv; cbn [best]; pose proof (mi_attr _ _ _ _ M v Hv) as A; unfold attrs in A; fold g in A;
    destruct (nth_error g v) as [x|] eqn:Ex, (nth_error dst0 v) as [y|] eqn:Ey; try discriminate; auto; injection A as A1 A2 A3; rewrite A2, A3; auto.
  assert (Q : first_some (fun c => if enters g c b then best g l (if (v_label y =? NOLABEL)%N then lab else v_label y) w c (pos + 1)%N else None) (v_out x) =
              first_some (fun c => if enters dst0 c b then best dst0 l (if (v_label y =? NOLABEL)%N then lab else v_label y) w c (pos + 1)%N else None) (v_out y)); [|rewrite Q; auto].
  rewrite (first_some_filter _ (fun c => c <? n0)).
  - pose proof (mi_filter _ _ _ _ M v Hv) as F. unfold outs in F. fold g in F. rewrite Ex, Ey in F. fold n0 in F. rewrite F. apply first_some_ext. intros c Hc.
    assert (HL : c < n0) by (eapply sym_bounded; [apply D0|]; unfold outs; rewrite Ey; eauto).
    rewrite (enters_attrs dst0 g c) by (apply (mi_attr _ _ _ _ M); auto). rewrite IH by auto. auto.
  - intros c _ Hc. apply Nat.ltb_ge in Hc. rewrite NN by auto. destruct (enters g c b); auto.
Qed.
End Done.

(** * Merging keeps every keyword (C33) *)
Theorem merge_language dst0 src label fuel : fsm_ok dst0 -> fsm_ok src -> (forall v, v < length dst0 -> reach dst0 v) ->
  labels_in src (fun l => l = label) -> (forall v, lbl dst0 v <> label) -> label <> NOLABEL -> merge_fuel src <= fuel ->
  exists g, mergeIntoFSM fuel dst0 src = Ok g /\ fsm_ok g /\ (forall v, v < length g -> reach g v) /\ (forall v, lbl g v = NOLABEL \/ lbl g v = label \/ exists u, lbl dst0 u = lbl g v) /\
    length dst0 <= length g /\
    (forall l w, matches g l w <-> (l <> label /\ matches dst0 l w) \/ (l = label /\ matches src label w)) /\
    (forall l w pos, l <> label -> best g l NOLABEL w 0 pos = best dst0 l NOLABEL w 0 pos).
Proof.
  intros D0 S0 R0 SL FL LL HF. destruct (merge_spec dst0 src D0 S0 R0 (fun _ _ => True) fuel) as (s & E & M & _); auto.
  exists (m_dst s). split; auto. split; [exact (done_ok dst0 src D0 S0 R0 s M)|]. split; [apply (mi_reach _ _ _ _ M)|]. split; [|split; [apply (mi_old _ _ _ _ M)|split]].
  - intros v. destruct (Nat.lt_ge_cases v (length dst0)) as [HO|HO].
    + right. right. exists v. symmetry. apply (lbl_attrs dst0). apply (mi_attr _ _ _ _ M). auto.
    + destruct (Nat.lt_ge_cases v (length (m_dst s))) as [HL|HL].
      * destruct (new_lbl dst0 src label SL s M v (conj HO HL)); auto.
      * left. unfold lbl. replace (nth_error (m_dst s) v) with (@None vertex); auto. symmetry. apply nth_error_None. auto.
  - intros l w. eapply done_language; eauto.
  - intros l w pos Hl. eapply done_best_old; eauto. destruct (fk_root _ D0) as (x & Ex & _). apply nth_error_Some. congruence.
Qed.
