(** mergeIntoFSM: what the automaton prefers for the new keyword. *)
From Verif Require Import Base NfaModel VmModel CodegenSpec Thm_Codegen BuildModel BuildProofs OptModel OptSpec OptPrune OptMerge OptMergeLang.
Open Scope nat_scope.

(** No two successors of one state are entered only from there, on the same bytes, and have the same
    label: such states would be merged with each other. *)
Definition no_twins (g : nfa) : Prop := forall h c c', In c (outs g h) -> In c' (outs g h) -> length (ins g c) = 1 -> length (ins g c') = 1 ->
  bts g c = bts g c' -> lbl g c = lbl g c' -> c = c'.

Definition no_parallel (g : nfa) : Prop := forall v, NoDup (outs g v).

Lemma nth_spliced k l x i : k <= length l -> nth_error (spliced k l [x]) i = if i <? k then nth_error l i else if i =? k then Some x else nth_error l (i - 1).
Proof.
  intros H. unfold spliced. assert (L : length (firstn k l) = k) by (apply firstn_length_le; auto).
  assert (NF : forall (l : list nat) k i, i < k -> nth_error (firstn k l) i = nth_error l i).
  { clear. induction l as [|y l IH]; intros k i H; [destruct k; auto|]. destruct k; [lia|]. destruct i; simpl; auto. apply IH. lia. }
  assert (NS : forall (l : list nat) k i, nth_error (skipn k l) i = nth_error l (k + i)).
  { clear. induction l as [|y l IH]; intros k i; [destruct k; simpl; auto; destruct i; auto; destruct (k + i); auto|]. destruct k; simpl; auto. }
  destruct (Nat.ltb_spec i k).
  - rewrite nth_error_app1 by lia. apply NF; auto.
  - rewrite nth_error_app2, L by lia. destruct (Nat.eqb_spec i k) as [->|].
    + rewrite Nat.sub_diag. auto.
    + destruct (i - k) as [|j] eqn:Ej; [lia|]. simpl. rewrite NS. f_equal. lia.
Qed.

Lemma nodup_spliced k l x : k <= length l -> NoDup l -> ~ In x l -> NoDup (spliced k l [x]).
Proof.
  intros _ N H. unfold spliced. apply (NoDup_Add (a := x) (l := firstn k l ++ skipn k l)); [apply Add_app|]. rewrite firstn_skipn. auto.
Qed.

(** [e] stands before [f] in [l] *)
Definition before (l : list nat) (e f : nat) : Prop := exists i j, i < j /\ nth_error l i = Some e /\ nth_error l j = Some f.

Lemma before_spliced k l x e f : k <= length l -> before l e f -> before (spliced k l [x]) e f.
Proof.
  intros H (i & j & Hij & Hi & Hj). exists (if i <? k then i else S i), (if j <? k then j else S j).
  assert (N : forall i y, nth_error l i = Some y -> nth_error (spliced k l [x]) (if i <? k then i else S i) = Some y).
  { intros a y Ha. rewrite nth_spliced by auto. destruct (Nat.ltb_spec a k).
    - replace (a <? k) with true by (symmetry; apply Nat.ltb_lt; auto). auto.
    - replace (S a <? k) with false by (symmetry; apply Nat.ltb_ge; lia). replace (S a =? k) with false by (symmetry; apply Nat.eqb_neq; lia). simpl. rewrite Nat.sub_0_r. auto. }
  split; [destruct (Nat.ltb_spec i k), (Nat.ltb_spec j k); lia|]. split; apply N; auto.
Qed.

Lemma first_some_at {A B} (f : A -> option B) l r : first_some f l = Some r <->
  exists k a, nth_error l k = Some a /\ f a = Some r /\ forall j b, j < k -> nth_error l j = Some b -> f b = None.
Proof.
  induction l as [|x l IH]; simpl.
  - split; [discriminate|]. intros (k & a & H & _). destruct k; discriminate.
  - destruct (f x) as [r'|] eqn:E.
    + split.
      * intros H. injection H as <-. exists 0, x. split; auto. split; auto. intros; lia.
      * intros (k & a & H1 & H2 & H3). destruct k as [|k]; [simpl in H1; injection H1 as <-; congruence|]. rewrite (H3 0 x) in E; [discriminate|lia|auto].
    + rewrite IH. split.
      * intros (k & a & H1 & H2 & H3). exists (S k), a. split; auto. split; auto. intros [|j] b Hj Hb; [simpl in Hb; congruence|]. apply (H3 j); [lia|auto].
      * intros (k & a & H1 & H2 & H3). destruct k as [|k]; [simpl in H1; injection H1 as <-; congruence|]. exists k, a. split; auto. split; auto. intros j b Hj Hb. apply (H3 (S j)); [lia|auto].
Qed.

(** Searching two lists, one of which has the images of the other in order and others that give nothing *)
Lemma first_some_image {B} (f h : nat -> option B) (R : nat -> nat -> Prop) l m : NoDup l -> (forall c e e', R c e -> R c e' -> e = e') ->
  (forall c e, In c m -> R c e -> In e l -> f e = h c) ->
  (forall c, In c m -> exists e, R c e /\ In e l) ->
  (forall e, In e l -> f e = None \/ exists c, In c m /\ R c e) ->
  (forall i j c c' e e', i < j -> nth_error m i = Some c -> nth_error m j = Some c' -> R c e -> R c' e' -> before l e e') ->
  first_some f l = first_some h m.
Proof.
  intros ND FU HF HI HN HO. destruct (first_some h m) as [r|] eqn:E.
  - apply first_some_at in E as (i & c & H1 & H2 & H3). assert (Hc : In c m) by (eapply nth_error_In; eauto). destruct (HI c Hc) as (e & Re & Ie).
    destruct (In_nth_error _ _ Ie) as (k & Hk). apply first_some_at. exists k, e. split; auto. split; [rewrite (HF c e); auto|].
    intros j b Hj Hb. assert (Ib : In b l) by (eapply nth_error_In; eauto). destruct (HN b Ib) as [|(c' & Hc' & Rc')]; auto.
    rewrite (HF c' b) by auto. destruct (In_nth_error _ _ Hc') as (i' & Hi').
    destruct (Nat.lt_trichotomy i' i) as [L|[->|L]]; [eapply H3; eauto| |]; exfalso.
    + rewrite H1 in Hi'. injection Hi' as <-. rewrite (FU c b e) in Hb by auto.
      assert (j = k); [|lia]. rewrite NoDup_nth_error in ND. apply ND; [apply nth_error_Some; congruence|congruence].
    + destruct (HO i i' c c' e b L H1 Hi' Re Rc') as (a1 & a2 & A & A1 & A2). rewrite NoDup_nth_error in ND.
      assert (a1 = k) by (apply ND; [apply nth_error_Some; congruence|congruence]). assert (a2 = j) by (apply ND; [apply nth_error_Some; congruence|congruence]). lia.
  - destruct (first_some f l) as [r|] eqn:E'; auto. exfalso. apply first_some_at in E' as (k & e & H1 & H2 & H3). assert (Ie : In e l) by (eapply nth_error_In; eauto).
    destruct (HN e Ie) as [|(c & Hc & Rc)]; [congruence|]. rewrite (HF c e) in H2 by auto.
    clear - E Hc H2. induction m as [|x m IH]; [destruct Hc|]. simpl in E. destruct (h x) eqn:Eh; [discriminate|]. destruct Hc as [->|Hc]; [congruence|auto].
Qed.

Section Order.
Variables dst0 src : nfa.
Hypothesis D0 : fsm_ok dst0.
Hypothesis S0 : fsm_ok src.
Hypothesis R0 : forall v, v < length dst0 -> reach dst0 v.
Hypothesis NT : no_twins src.
Hypothesis NP : no_parallel src.
Hypothesis NP0 : no_parallel dst0.

Record ordered (s : merge) (todo : list (nat * nat)) : Prop := {
  o_inj : forall p p' d, im s p d -> im s p' d -> p = p';
  o_nodup : no_parallel (m_dst s);
  o_seg : forall h i j, In (h, i) (m_vis s) -> j < i -> In (h, j) (m_vis s);
  o_stack : forall A h i B, todo = A ++ (h, i) :: B -> forall j, j < i -> In (h, j) (m_vis s) \/ In (h, j) A;
  o_ord : forall h d i j c c' e e', i < j -> In (h, i) (m_vis s) -> In (h, j) (m_vis s) -> im s h d -> nth_error (outs src h) i = Some c -> nth_error (outs src h) j = Some c' ->
     im s c e -> im s c' e' -> before (outs (m_dst s) d) e e';
  o_pos : forall h d, im s h d -> match m_pos s d with
     | None => forall i, ~ In (h, i) (m_vis s)
     | Some k => exists i c e, In (h, i) (m_vis s) /\ (forall j, In (h, j) (m_vis s) -> j <= i) /\ nth_error (outs src h) i = Some c /\ im s c e /\ nth_error (outs (m_dst s) d) k = Some e
     end;
  o_posim : forall d k, m_pos s d = Some k -> exists h, im s h d
}.

Lemma im_fun s p d d' : im s p d -> im s p d' -> d = d'.
Proof. unfold im. congruence. Qed.

Lemma ordered_skip s p rest : ordered s (p :: rest) -> In p (m_vis s) -> ordered s rest.
Proof.
  intros [a1 a2 a3 a4 a5 a6 a7] H. split; auto. intros A h i B E j Hj. destruct (a4 (p :: A) h i B) with (j := j) as [|[->|]]; auto. rewrite E. auto.
Qed.

Section Step.
Variables (s : merge) (sh si dh st : nat) (rest : list (nat * nat)) (g' : nfa) (dt di : nat).
Hypothesis M : minv dst0 src s ((sh, si) :: rest).
Hypothesis X : ordered s ((sh, si) :: rest).
Hypothesis Ih : im s sh dh.
Hypothesis Hst : nth_error (outs src sh) si = Some st.
Hypothesis NV : ~ In (sh, si) (m_vis s).
Hypothesis P : pstep src s dh st g' dt di.
Let s' := after s sh si dh st g' dt di.
Lemma o_graph : gstep dst0 src s dh st g' dt di.
Proof. eapply step_graph; eauto. Qed.
Lemma o_cases : im s st dt \/ (nth_error (m_s2d s) st = Some None /\ nth_error (outs (m_dst s) dh) di = Some dt /\ length (ins (m_dst s) dt) = 1 /\ length (ins src st) = 1 /\
  (forall p, hd_error (m_d2s s dt) = Some p -> length (ins src p) = 1) /\ (lbl src st = NOLABEL \/ (outs src st = [] /\ outs (m_dst s) dt = [])) /\ match m_pos s dh with Some p => p | None => 0 end <= di) \/
  (nth_error (m_s2d s) st = Some None /\ dt = length (m_dst s)).
Proof. eapply pcases; eauto. Qed.
Lemma o_keep p d : im s p d -> im s' p d.
Proof. eapply im_keep; eauto. Qed.

Lemma o_step p d : im s' p d <-> (p = st /\ d = dt) \/ (p <> st /\ im s p d).
Proof. eapply im_step; eauto. Qed.

Lemma o_back p d : im s' p d -> p <> st -> im s p d.
Proof. intros I Hn. apply o_step in I as [(? & _)|(_ & ?)]; [congruence|auto]. Qed.

Lemma o_st0 : st <> 0.
Proof. eapply st_bounds; eauto. Qed.

Lemma o_inj' p p' d : im s' p d -> im s' p' d -> p = p'.
Proof.
  assert (Q : forall q, q <> st -> im s q dt -> False).
  { intros q Hq I. pose proof o_st0 as T0. destruct (gs_tail _ _ _ _ _ _ _ _ o_graph) as (DT0 & _).
    assert (Q0 : q <> 0). { intros ->. pose proof (mi_im0 _ _ _ _ M) as I0. apply DT0. eapply im_fun; eauto. }
    destruct o_cases as [Im|[(Un & Hn & Hd & Hs & Hf & _)|(Un & E2)]].
    - apply Hq. eapply (o_inj _ _ X); eauto.
    - destruct (mi_J _ _ _ _ M q dt dh Q0 I (nth_error_In _ _ Hn)) as (r & Hr & Ir). rewrite (o_inj _ _ X r sh dh Ir Ih) in Hr.
      apply Hq. apply (NT sh q st); auto.
      + eapply nth_error_In; eauto.
      + assert (Iq : In q (m_d2s s dt)) by (apply (mi_front _ _ _ _ M); auto). destruct (m_d2s s dt) as [|z l] eqn:Ed; [destruct Iq|].
        assert (Z0 : z <> 0) by (intros ->; apply (mi_front0 _ _ _ _ M dt); rewrite Ed; left; auto).
        assert (Iz : im s z dt) by (apply (mi_front _ _ _ _ M); auto; rewrite Ed; left; auto). rewrite (o_inj _ _ X q z dt I Iz). apply Hf. auto.
      + destruct (gs_tail _ _ _ _ _ _ _ _ o_graph) as (_ & _ & B & L & _). destruct (mi_im _ _ _ _ M q dt I Q0) as (_ & DL & B' & _).
        rewrite <- B, <- B'. symmetry. apply bts_attrs. apply (gs_attr _ _ _ _ _ _ _ _ o_graph). auto.
      + destruct (gs_tail _ _ _ _ _ _ _ _ o_graph) as (_ & _ & B & L & _). destruct (mi_im _ _ _ _ M q dt I Q0) as (_ & DL & _ & L' & _).
        rewrite <- L, <- L'. symmetry. apply lbl_attrs. apply (gs_attr _ _ _ _ _ _ _ _ o_graph). auto.
    - pose proof (new_unmapped dst0 src D0 R0 s sh si rest M _ _ I). lia. }
  intros I I'. apply o_step in I as [(-> & ->)|(Hn & I)]; apply o_step in I' as [(-> & E2)|(Hn' & I')]; auto.
  - exfalso. eauto.
  - subst d. exfalso. eauto.
  - eapply (o_inj _ _ X); eauto.
Qed.

Lemma o_fresh : ~ (im s st dt /\ In dt (outs (m_dst s) dh)).
Proof.
  intros (I & H). destruct (mi_edge _ _ _ _ M dh dt H) as [(HL & H')|(p & i & q & H0 & H1 & H2 & H3)].
  - apply (mapped_in dst0 src S0 s sh si st rest M Hst NV dt I). apply (mi_O _ _ _ _ M st dt); [apply o_st0|auto|]. eapply sym_bounded; eauto. apply D0.
  - rewrite (o_inj _ _ X p sh dh H1 Ih) in *. rewrite (o_inj _ _ X q st dt H3 I) in *. apply NV. replace si with i; auto.
    pose proof (NP sh) as N. rewrite NoDup_nth_error in N. apply N; [apply nth_error_Some; congruence|congruence].
Qed.

Lemma o_head : nth_error (outs g' dh) di = Some dt.
Proof.
  destruct (gs_head _ _ _ _ _ _ _ _ o_graph) as [(_ & -> & H)|(_ & -> & H & _)]; auto. rewrite nth_spliced by auto.
  rewrite Nat.ltb_irrefl, Nat.eqb_refl. auto.
Qed.

Lemma o_before d e f : before (outs (m_dst s) d) e f -> before (outs g' d) e f.
Proof.
  intros H. destruct (Nat.eq_dec d dh) as [->|Hn]; [|rewrite (gs_other _ _ _ _ _ _ _ _ o_graph); auto].
  destruct (gs_head _ _ _ _ _ _ _ _ o_graph) as [(_ & -> & _)|(_ & -> & Hd & _)]; auto. apply before_spliced; auto.
Qed.

Lemma o_last i c e : In (sh, i) (m_vis s) -> nth_error (outs src sh) i = Some c -> im s c e -> before (outs g' dh) e dt.
Proof.
  intros V Hc I. pose proof (o_pos _ _ X sh dh Ih) as Q. destruct (m_pos s dh) as [k|] eqn:EP; [|apply Q in V; destruct V].
  destruct Q as (j & cj & ej & Vj & Mj & Hcj & Ij & Hk).
  assert (KD : before (outs g' dh) ej dt).
  { destruct o_cases as [Im|[(Un & Hn & _ & _ & _ & _ & Hle)|(Un & E2)]].
    - destruct (gs_head _ _ _ _ _ _ _ _ o_graph) as [(Hin & _)|(Hin & Ho & Hd & _)]; [destruct o_fresh; auto|].
      assert (Ed : di = length (outs (m_dst s) dh)).
      { inversion P as [dt1 Im1 Hin1 E1 E2 E3|dt1 g1 Im1 Hin1 Hins E1 E2 E3|dt1 di1 Un Hn Hle Hl Hl2 Hd' Hs Hf Hb E1 E2 E3|z g1 di1 Un Hz Hdi Hins E1 E2 E3]; try reflexivity; try (unfold im in *; congruence); destruct Hin; auto. }
      rewrite Ho. exists k, di. assert (KL : k < length (outs (m_dst s) dh)) by (apply nth_error_Some; congruence). split; [lia|].
      rewrite !nth_spliced by auto. replace (k <? di) with true by (symmetry; apply Nat.ltb_lt; lia). rewrite Nat.ltb_irrefl, Nat.eqb_refl. auto.
    - rewrite EP in Hle. destruct (gs_head _ _ _ _ _ _ _ _ o_graph) as [(_ & -> & _)|(Hin & _)]; [|destruct Hin; eapply nth_error_In; eauto].
      exists k, di. split; auto. destruct (Nat.eq_dec k di) as [->|]; [|lia]. exfalso. rewrite Hk in Hn. injection Hn as ->.
      assert (cj = st); [|subst; unfold im in *; congruence]. apply (o_inj' cj st dt); [apply o_keep; auto|apply o_step; auto].
    - destruct (gs_head _ _ _ _ _ _ _ _ o_graph) as [(Hin & _)|(Hin & Ho & Hd & _)]; [apply (sym_bounded _ _ _ (mi_sym _ _ _ _ M)) in Hin; lia|].
      assert (Ed : di = length (outs (m_dst s) dh)).
      { inversion P as [dt1 Im1 Hin1 E1 E3 E4|dt1 g1 Im1 Hin1 Hins E1 E3 E4|dt1 di1 Un1 Hn Hle Hl Hl2 Hd' Hs Hf Hb E1 E3 E4|z g1 di1 Un1 Hz Hdi Hins E1 E3 E4]; try reflexivity; try (unfold im in *; congruence).
        - destruct Hin. eapply nth_error_In; eauto.
        - rewrite EP in Hdi. congruence. }
      rewrite Ho. exists k, di. assert (KL : k < length (outs (m_dst s) dh)) by (apply nth_error_Some; congruence). split; [lia|].
      rewrite !nth_spliced by auto. replace (k <? di) with true by (symmetry; apply Nat.ltb_lt; lia). rewrite Nat.ltb_irrefl, Nat.eqb_refl. auto. }
  pose proof (Mj i V) as Hij. destruct (Nat.eq_dec i j) as [->|Hn].
  - rewrite Hc in Hcj. injection Hcj as <-. rewrite (im_fun s c e ej I Ij). auto.
  - assert (B : before (outs g' dh) e ej). { apply o_before. apply (o_ord _ _ X sh dh i j c cj e ej); auto. lia. }
    destruct B as (x1 & x2 & A1 & A2 & A3), KD as (y1 & y2 & B1 & B2 & B3). exists x1, y2. split; auto.
    assert (x2 = y1); [|lia]. assert (ND : NoDup (outs g' dh)).
    { destruct (gs_head _ _ _ _ _ _ _ _ o_graph) as [(_ & -> & _)|(Hin & -> & Hd & _)]; [apply (o_nodup _ _ X)|apply nodup_spliced; auto; apply (o_nodup _ _ X)]. }
    rewrite NoDup_nth_error in ND. apply ND; [apply nth_error_Some; congruence|congruence].
Qed.

Lemma o_max j : In (sh, j) (m_vis s) -> j < si.
Proof.
  intros V. destruct (Nat.lt_trichotomy j si) as [|[->|L]]; [auto|tauto|]. destruct NV. eapply (o_seg _ _ X); eauto.
Qed.

Lemma vis_im h i : In (h, i) (m_vis s) -> h <> st \/ im s st dt.
Proof.
  intros V. destruct (Nat.eq_dec h st) as [->|]; auto. right. destruct (mi_vis _ _ _ _ M st i V) as (c & d & _ & _ & I & _).
  rewrite <- (st_old src s dh st g' dt di P d I). auto.
Qed.

Lemma tail_im h i c : In (h, i) (m_vis s) -> nth_error (outs src h) i = Some c -> forall e, im s' c e -> im s c e.
Proof.
  intros V H e I. destruct (mi_vis _ _ _ _ M h i V) as (c' & d & e' & H' & _ & I' & _). rewrite H in H'. injection H' as <-.
  rewrite (im_fun s' c e e' I (o_keep _ _ I')). auto.
Qed.

Lemma head_im h i d : In (h, i) (m_vis s) -> im s' h d -> im s h d.
Proof.
  intros V I. destruct (mi_vis _ _ _ _ M h i V) as (c' & d' & e' & H' & I' & _). rewrite (im_fun s' h d d' I (o_keep _ _ I')). auto.
Qed.

Lemma step_ordered : ordered s' (out_pairs src st ++ rest).
Proof.
  split.
  - apply o_inj'.
  - intros v. change (NoDup (outs g' v)). destruct (Nat.eq_dec v dh) as [->|Hn]; [|rewrite (gs_other _ _ _ _ _ _ _ _ o_graph) by auto; apply (o_nodup _ _ X)].
    destruct (gs_head _ _ _ _ _ _ _ _ o_graph) as [(_ & -> & _)|(Hin & -> & Hd & _)]; [apply (o_nodup _ _ X)|apply nodup_spliced; auto; apply (o_nodup _ _ X)].
  - intros h i j [Q|V] Hj.
    + injection Q as <- <-. right. destruct (o_stack _ _ X [] sh si rest eq_refl j Hj) as [|[]]; auto.
    + right. eapply (o_seg _ _ X); eauto.
  - intros A h i B Q j Hj. assert (OP : forall A h i B, out_pairs src st = A ++ (h, i) :: B -> h = st /\ forall j, j < i -> In (st, j) A).
    { clear. intros A h i B. unfold out_pairs. generalize (length (outs src st)). intros n. assert (Z : forall n b A h i B, map (pair st) (seq b n) = A ++ (h, i) :: B -> h = st /\ b <= i /\ forall j, b <= j < i -> In (st, j) A).
      { clear. induction n as [|n IH]; intros b A h i B Q; [destruct A; discriminate|]. destruct A as [|a A]; simpl in Q.
        - injection Q as <- <- _. split; auto. split; [lia|]. intros; lia.
        - injection Q as <- Q. destruct (IH _ _ _ _ _ Q) as (H1 & H2 & H3). split; auto. split; [lia|]. intros j Hj. destruct (Nat.eq_dec j b) as [->|]; [left; auto|right; apply H3; lia]. }
      intros Q. destruct (Z _ _ _ _ _ _ Q) as (H1 & _ & H3). split; auto. intros j Hj. apply H3. lia. }
    destruct (Nat.lt_ge_cases (length A) (length (out_pairs src st))) as [HL|HL].
    + assert (Q' : exists B', out_pairs src st = A ++ (h, i) :: B').
      { clear - Q HL. revert Q HL. generalize (out_pairs src st). induction A as [|a A IH]; intros [|x l] Q HL; simpl in *; try lia.
        - injection Q as <- _. exists l. auto.
        - injection Q as <- Q. destruct (IH l Q) as (B' & ->); [lia|]. exists B'. auto. }
      destruct Q' as (B' & Q'). destruct (OP A h i B' Q') as (-> & H). right. apply H; auto.
    + assert (Q' : exists A', A = out_pairs src st ++ A' /\ rest = A' ++ (h, i) :: B).
      { clear - Q HL. revert A Q HL. generalize (out_pairs src st). induction l as [|x l IH]; intros A Q HL; [exists A; auto|]. destruct A as [|a A]; simpl in *; [lia|].
        injection Q as <- Q. destruct (IH A Q) as (A' & -> & ->); [lia|]. exists A'. auto. }
      destruct Q' as (A' & -> & Q'). destruct (o_stack _ _ X ((sh, si) :: A') h i B) with (j := j) as [V|[V|V]]; auto.
      * rewrite Q'. auto.
      * left. right. auto.
      * left. left. auto.
      * right. apply in_or_app. auto.
  - intros h d i j c c' e e' Hij Vi Vj I Hc Hc' Ie Ie'. change (before (outs g' d) e e'). destruct Vj as [Q|Vj].
    + injection Q as <- <-. destruct Vi as [Q|Vi]; [injection Q as ->; lia|]. rewrite Hst in Hc'. injection Hc' as <-.
      assert (d = dh) by (apply (im_fun s' sh); auto; apply o_keep; auto). subst d. assert (e' = dt) by (apply (im_fun s' st); auto; apply o_step; auto). subst e'. 
      eapply (o_last i c e); eauto. eapply tail_im; eauto.
    + destruct Vi as [Q|Vi].
      * injection Q as <- <-. apply o_max in Vj. lia.
      * apply o_before. apply (o_ord _ _ X h d i j c c' e e'); auto; [apply (head_im h i d Vi I)|apply (tail_im h i c Vi Hc e Ie)|apply (tail_im h j c' Vj Hc' e' Ie')].
  - intros h d I. change (match fupd (m_pos s) dh (Some di) d with None => forall i, ~ In (h, i) ((sh, si) :: m_vis s) | Some k => exists i c e, In (h, i) ((sh, si) :: m_vis s) /\ (forall j, In (h, j) ((sh, si) :: m_vis s) -> j <= i) /\ nth_error (outs src h) i = Some c /\ im s' c e /\ nth_error (outs g' d) k = Some e end).
    unfold fupd. destruct (Nat.eqb_spec d dh) as [->|Hn].
    + rewrite (o_inj' h sh dh I (o_keep _ _ Ih)). exists si, st, dt. split; [left; auto|]. split; [|split; auto; split; [apply o_step; auto|apply o_head]].
      intros j [Q|V]; [injection Q as ->; auto|apply o_max in V; lia].
    + assert (Hh : h <> sh). { intros ->. apply Hn. apply (im_fun s' sh); auto. apply o_keep; auto. }
      destruct (Nat.eq_dec h st) as [->|Hs].
      * assert (d = dt) by (apply (im_fun s' st); auto; apply o_step; auto). subst d. destruct o_cases as [Im|Un].
        -- pose proof (o_pos _ _ X st dt Im) as Q. destruct (m_pos s dt) as [k|].
           ++ destruct Q as (i & c & e & H1 & H2 & H3 & H4 & H5). exists i, c, e. split; [right; auto|]. split; [intros j [Q|V]; [congruence|auto]|]. split; auto. split; [apply o_keep; auto|]. rewrite (gs_other _ _ _ _ _ _ _ _ o_graph); auto.
           ++ intros i [Q'|V]; [congruence|]. apply (Q i V).
        -- assert (UN : nth_error (m_s2d s) st = Some None) by (destruct Un as [(H & _)|(H & _)]; auto).
           destruct (m_pos s dt) as [k|] eqn:EP.
           ++ destruct (o_posim _ _ X dt k EP) as (h & Ihd). assert (h = st) by (apply (o_inj' h st dt); auto; apply o_keep; auto). subst h. unfold im in Ihd. congruence.
           ++ intros i [Q'|V]; [congruence|]. destruct (mi_vis _ _ _ _ M st i V) as (_ & d & _ & _ & I' & _). unfold im in I'. congruence.
      * apply o_back in I; auto. pose proof (o_pos _ _ X h d I) as Q. destruct (m_pos s d) as [k|].
        -- destruct Q as (i & c & e & H1 & H2 & H3 & H4 & H5). exists i, c, e. split; [right; auto|]. split; [intros j [Q|V]; [congruence|auto]|]. split; auto. split; [apply o_keep; auto|]. rewrite (gs_other _ _ _ _ _ _ _ _ o_graph); auto.
        -- intros i [Q'|V]; [congruence|]. apply (Q i V).
  - intros d k. change (fupd (m_pos s) dh (Some di) d = Some k -> exists h, im s' h d). unfold fupd. destruct (Nat.eqb_spec d dh) as [->|Hn].
    + intros _. exists sh. apply o_keep; auto.
    + intros EP. destruct (o_posim _ _ X d k EP) as (h & I). exists h. apply o_keep; auto.
Qed.
End Step.

Lemma start_ordered : ordered (start dst0 src) (out_pairs src 0).
Proof.
  split; cbn [start m_dst m_vis m_pos].
  - intros p p' d I I'. apply (start_im dst0 src S0) in I; apply (start_im dst0 src S0) in I'. lia.
  - exact NP0.
  - intros h i j [].
  - intros A h i B Q j Hj. right. assert (Z : forall n b A h i B, map (pair 0) (seq b n) = A ++ (h, i) :: B -> h = 0 /\ b <= i /\ forall j, b <= j < i -> In (0, j) A).
    { clear. induction n as [|n IH]; intros b A h i B Q; [destruct A; discriminate|]. destruct A as [|a A]; simpl in Q.
      - injection Q as <- <- _. split; auto. split; [lia|]. intros; lia.
      - injection Q as <- Q. destruct (IH _ _ _ _ _ Q) as (H1 & H2 & H3). split; auto. split; [lia|]. intros j Hj. destruct (Nat.eq_dec j b) as [->|]; [left; auto|right; apply H3; lia]. }
    unfold out_pairs in Q. destruct (Z _ _ _ _ _ _ Q) as (-> & _ & H). apply H. lia.
  - intros h d i j c c' e e' _ [].
  - intros h d _ i [].
  - discriminate.
Qed.

Section Done.
Variable label : N.
Hypothesis SL : labels_in src (fun l => l = label).
Hypothesis FL : forall v, lbl dst0 v <> label.
Hypothesis LL : label <> NOLABEL.
Variable s : merge.
Hypothesis M : minv dst0 src s [].
Hypothesis X : ordered s [].
Let g := m_dst s.
Let G : fsm_ok g := done_ok dst0 src D0 S0 R0 s M.

Lemma outside_none w v pos lab : v <> 0 -> (forall p, ~ im s p v) -> best g label lab w v pos = None.
Proof.
  intros H0 HN. apply (best_none g label (fun v => v <> 0 /\ forall p, ~ im s p v)); auto; [apply G| |].
  - intros u (U0 & HU) HM HL. pose proof (mat_lt _ _ HM) as UL. destruct (Nat.lt_ge_cases u (length dst0)) as [HO|HO].
    + apply (FL u). rewrite <- HL. symmetry. apply lbl_attrs. apply (mi_attr _ _ _ _ M). auto.
    + destruct (mi_new _ _ _ _ M u (conj HO UL)) as (p & _ & I & _). apply (HU p I).
  - intros u c (U0 & HU) Hc. destruct (edge_bounds g u c G Hc) as (C0 & _). split; auto. intros q I.
    assert (Q0 : q <> 0). { intros ->. apply C0. apply (im_fun s 0); auto. apply (mi_im0 _ _ _ _ M). }
    destruct (mi_J _ _ _ _ M q c u Q0 I Hc) as (r & _ & Ir). apply (HU r Ir).
Qed.

Lemma done_best_new : forall w p d pos lab, im s p d -> best g label lab w d pos = best src label lab w p pos.
Proof.
  induction w as [|b w IH]; intros p d pos lab I.
  - cbn [best]. destruct (Nat.eq_dec p 0) as [->|Hp].
    + assert (d = 0) by (apply (im_fun s 0); auto; apply (mi_im0 _ _ _ _ M)). subst d.
      destruct (fk_root _ G) as (x & Ex & _ & Mx & _), (fk_root _ S0) as (y & Ey & _ & My & _). rewrite Ex, Ey, Mx, My. auto.
    + destruct (mi_im _ _ _ _ M p d I Hp) as (_ & _ & _ & L & T). unfold lbl, mat in *. fold g in L, T.
      destruct (im_lt dst0 src D0 R0 s [] p d M I) as (H1 & H2). fold g in H2. destruct (nth_lt g d H2) as (x & Ex), (nth_lt src p H1) as (y & Ey). rewrite Ex, Ey in *. rewrite L, T. auto.
  - cbn [best]. destruct (im_lt dst0 src D0 R0 s [] p d M I) as (H1 & H2). fold g in H2. destruct (nth_lt g d H2) as (x & Ex), (nth_lt src p H1) as (y & Ey). rewrite Ex, Ey.
    assert (LT : v_label x = v_label y /\ v_match x = v_match y).
    { destruct (Nat.eq_dec p 0) as [->|Hp].
      - assert (d = 0) by (apply (im_fun s 0); auto; apply (mi_im0 _ _ _ _ M)). subst d.
        destruct (fk_root _ G) as (x' & Ex' & _ & Mx & Lx & _), (fk_root _ S0) as (y' & Ey' & _ & My & Ly & _). rewrite Ex in Ex'. rewrite Ey in Ey'. injection Ex' as <-. injection Ey' as <-. split; congruence.
      - destruct (mi_im _ _ _ _ M p d I Hp) as (_ & _ & _ & L & T). unfold lbl, mat in *. fold g in L, T. rewrite Ex, Ey in *. auto. }
    destruct LT as (-> & ->). set (lab' := if (v_label y =? NOLABEL)%N then lab else v_label y).
    assert (OX : outs g d = v_out x) by (unfold outs; rewrite Ex; auto). assert (OY : outs src p = v_out y) by (unfold outs; rewrite Ey; auto).
    rewrite (first_some_image (fun c => if enters g c b then best g label lab' w c (pos + 1)%N else None) (fun c => if enters src c b then best src label lab' w c (pos + 1)%N else None) (im s) (v_out x) (v_out y)); auto.
    + rewrite <- OX. apply (o_nodup _ _ X).
    + intros c e e'. apply im_fun.
    + intros c e Hc Ie _. assert (C0 : c <> 0) by (rewrite <- OY in Hc; apply (edge_bounds src p c S0 Hc)). 
      unfold g at 1. rewrite (enters_im dst0 src D0 S0 R0 s M c e b C0 Ie). rewrite (IH c e); auto.
    + intros c Hc. rewrite <- OY in Hc. destruct (im_edge dst0 src s M p c d I Hc) as (e & Ie & He). fold g in He. rewrite OX in He. eauto.
    + intros e He. rewrite <- OX in He. destruct (edge_bounds g d e G He) as (E0 & EL & _).
      destruct (Nat.lt_ge_cases e (length dst0)) as [HO|HO].
      * assert (DEC : (exists q, im s q e) \/ forall q, ~ im s q e).
        { assert (Q : forall n, (exists q, q < n /\ im s q e) \/ forall q, q < n -> ~ im s q e).
          { induction n as [|n [(q & Hq & Iq)|HN]]; [right; lia|left; exists q; split; [lia|auto]|].
            destruct (nth_error (m_s2d s) n) as [[z|]|] eqn:Ez.
            - destruct (Nat.eq_dec z e) as [->|Hz]; [left; exists n; split; [lia|auto]|]. right. intros q Hq Iq. destruct (Nat.eq_dec q n) as [->|]; [unfold im in Iq; congruence|apply (HN q); auto; lia].
            - right. intros q Hq Iq. destruct (Nat.eq_dec q n) as [->|]; [unfold im in Iq; congruence|apply (HN q); auto; lia].
            - right. intros q Hq Iq. destruct (Nat.eq_dec q n) as [->|]; [unfold im in Iq; congruence|apply (HN q); auto; lia]. }
          destruct (Q (length src)) as [(q & _ & Iq)|HN]; [left; eauto|]. right. intros q Iq. apply (HN q); auto. apply (im_lt dst0 src D0 R0 s [] q e M Iq). }
        destruct DEC as [(q & Iq)|HN].
        -- right. assert (Q0 : q <> 0) by (intros ->; apply E0; apply (im_fun s 0); auto; apply (mi_im0 _ _ _ _ M)).
           destruct (mi_J _ _ _ _ M q e d Q0 Iq He) as (r & Hr & Ir). rewrite (o_inj _ _ X r p d Ir I) in Hr. rewrite OY in Hr. eauto.
        -- left. rewrite outside_none by auto. destruct (enters g e b); auto.
      * destruct (mi_new _ _ _ _ M e (conj HO EL)) as (q & Q0 & Iq & _). right. destruct (mi_J _ _ _ _ M q e d Q0 Iq He) as (r & Hr & Ir). rewrite (o_inj _ _ X r p d Ir I) in Hr. rewrite OY in Hr. eauto.
    + intros i j c c' e e' Hij Hc Hc' Ie Ie'. rewrite <- OX. rewrite <- OY in Hc, Hc'.
      assert (VI : forall i c, nth_error (outs src p) i = Some c -> In (p, i) (m_vis s)) by (intros i0 c0 H; destruct (mi_all _ _ _ _ M p d i0 I) as [|[]]; auto; apply nth_error_Some; congruence).
      apply (o_ord _ _ X p d i j c c' e e'); eauto.
Qed.
End Done.
End Order.

(** * Merging keeps what the new keyword prefers, if it has no twins (C12, C42) *)
Theorem merge_best dst0 src label fuel : fsm_ok dst0 -> fsm_ok src -> (forall v, v < length dst0 -> reach dst0 v) ->
  labels_in src (fun l => l = label) -> (forall v, lbl dst0 v <> label) -> label <> NOLABEL -> merge_fuel src <= fuel ->
  no_twins src -> no_parallel src -> no_parallel dst0 ->
  exists g, mergeIntoFSM fuel dst0 src = Ok g /\ no_parallel g /\ forall w pos, best g label NOLABEL w 0 pos = best src label NOLABEL w 0 pos.
Proof.
  intros D0 S0 R0 SL FL LL HF NT NP NP0.
  destruct (merge_spec dst0 src D0 S0 R0 (ordered src) fuel) as (s & E & M & X); auto.
  - intros. eapply ordered_skip; eauto.
  - intros s sh si rest dh st g' dt di M X Ih Hst NV P. apply (step_ordered dst0 src D0 S0 R0 NT NP s sh si dh st rest g' dt di M X Ih Hst NV P).
  - apply start_ordered; auto.
  - exists (m_dst s). split; auto. split; [apply (o_nodup _ _ _ X)|]. intros w pos. eapply (done_best_new dst0 src); eauto. apply (mi_im0 _ _ _ _ M).
Qed.
