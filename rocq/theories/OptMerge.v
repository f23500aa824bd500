(** mergeIntoFSM: what it does to the automaton, turn by turn. *)
From Verif Require Import Base NfaModel VmModel CodegenSpec Thm_Codegen BuildModel BuildProofs OptModel OptSpec OptPrune.
Open Scope nat_scope.

Definition copied (g : nfa) (z : vertex) : nfa := g ++ [mkV z.(v_trans) z.(v_match) z.(v_label) [] []].

Lemma copied_spec g z : length (copied g z) = S (length g) /\ (forall v, v < length g -> attrs (copied g z) v = attrs g v) /\
  attrs (copied g z) (length g) = Some (attr z) /\ (forall v, outs (copied g z) v = outs g v) /\ (forall v, ins (copied g z) v = ins g v).
Proof.
  unfold copied. rewrite app_length. simpl. split; [lia|].
  set (y := mkV _ _ _ [] []). assert (L : forall v, v < length g -> nth_error (g ++ [y]) v = nth_error g v) by (intros; apply nth_error_app1; auto).
  assert (M : nth_error (g ++ [y]) (length g) = Some y) by (rewrite nth_error_app2, Nat.sub_diag by auto; auto).
  split; [intros v H; unfold attrs; rewrite L; auto|]. split; [unfold attrs; rewrite M; auto|].
  assert (E : nth_error g (length g) = None) by (apply nth_error_None; auto).
  split; intros v; unfold outs, ins; destruct (Nat.lt_trichotomy v (length g)) as [H|[->|H]]; try (rewrite L by auto; auto; fail); try (rewrite M, E; auto; fail).
  - assert (E1 : nth_error g v = None) by (apply nth_error_None; lia). assert (E2 : nth_error (g ++ [y]) v = None) by (apply nth_error_None; rewrite app_length; simpl; lia). rewrite E1, E2. auto.
  - assert (E1 : nth_error g v = None) by (apply nth_error_None; lia). assert (E2 : nth_error (g ++ [y]) v = None) by (apply nth_error_None; rewrite app_length; simpl; lia). rewrite E1, E2. auto.
Qed.

Lemma index_of_spec v : forall l, index_of v l <= length l /\ (In v l -> nth_error l (index_of v l) = Some v /\ index_of v l < length l) /\ (~ In v l -> index_of v l = length l).
Proof.
  induction l as [|x l (IH1 & IH2 & IH3)]; simpl; [split; auto; split; [intros []|auto]|].
  destruct (Nat.eqb_spec x v) as [->|Hn]; [split; [lia|]; split; [intros _; split; [auto|lia]|intros H; destruct H; auto]|].
  split; [lia|]. split; [intros [?|H]; [congruence|]; destruct (IH2 H); split; [auto|lia]|]. intros H. f_equal. apply IH3. tauto.
Qed.

(** Two edges to one state *)
Lemma two_edges g h i h' i' t : sym g -> nth_error (outs g h) i = Some t -> nth_error (outs g h') i' = Some t -> (h, i) <> (h', i') -> length (ins g t) <> 1.
Proof.
  intros S H H' N E. destruct (ins g t) as [|a [|? ?]] eqn:Ei; try discriminate.
  assert (A : forall x k, nth_error (outs g x) k = Some t -> x = a).
  { intros x k Hx. apply nth_error_In in Hx. apply (sym_in g x t S) in Hx. rewrite Ei in Hx. destruct Hx as [|[]]; auto. }
  pose proof (A _ _ H) as E1. pose proof (A _ _ H') as E2. subst h h'. specialize (S a t). rewrite Ei in S. simpl in S. destruct (Nat.eq_dec a a); [|congruence].
  assert (Hi : i <> i') by congruence. clear - H H' S Hi. revert i i' H H' S Hi. generalize (outs g a). clear.
  assert (one : forall (l : list nat) i t, nth_error l i = Some t -> count_occ Nat.eq_dec l t >= 1) by (intros; apply (count_occ_In Nat.eq_dec); eapply nth_error_In; eauto).
  induction l as [|x l IH]; intros i i' H H' S Hi; [destruct i; discriminate|]. simpl in S. destruct i as [|i], i' as [|i']; simpl in *; try congruence.
  - injection H as ->. destruct (Nat.eq_dec t t); [|congruence]. apply one in H'. lia.
  - injection H' as ->. destruct (Nat.eq_dec t t); [|congruence]. apply one in H. lia.
  - destruct (Nat.eq_dec x t); [apply one in H; lia|]. eapply (IH i i'); eauto.
Qed.

Section Merge.
Variables dst0 src : nfa.
Hypothesis D0 : fsm_ok dst0.
Hypothesis S0 : fsm_ok src.
Hypothesis R0 : forall v, v < length dst0 -> reach dst0 v.
Let n0 := length dst0.

Definition im (s : merge) (p d : nat) : Prop := nth_error (m_s2d s) p = Some (Some d).

Record minv (s : merge) (todo : list (nat * nat)) : Prop := {
  mi_len : length (m_s2d s) = length src;
  mi_old : n0 <= length (m_dst s);
  mi_attr : forall v, v < n0 -> attrs (m_dst s) v = attrs dst0 v;
  mi_sym : sym (m_dst s);
  mi_root : ins (m_dst s) 0 = [];
  mi_filter : forall v, v < n0 -> filter (fun c => c <? n0) (outs (m_dst s) v) = outs dst0 v;
  mi_newfrom : forall v c, n0 <= v -> In c (outs (m_dst s) v) -> n0 <= c;
  mi_im0 : im s 0 0;
  mi_im : forall p d, im s p d -> p <> 0 -> d <> 0 /\ d < length (m_dst s) /\
     bts (m_dst s) d = bts src p /\ lbl (m_dst s) d = lbl src p /\ mat (m_dst s) d = mat src p;
  mi_new : forall d, n0 <= d < length (m_dst s) -> exists p, p <> 0 /\ im s p d /\ attrs (m_dst s) d = attrs src p;
  mi_front : forall p d, p <> 0 -> im s p d <-> In p (m_d2s s d);
  mi_front0 : forall d, ~ In 0 (m_d2s s d);
  mi_J : forall p d e, p <> 0 -> im s p d -> In d (outs (m_dst s) e) -> exists q, In p (outs src q) /\ im s q e;
  mi_S : forall p p' d, p <> 0 -> p' <> 0 -> im s p d -> im s p' d -> p <> p' -> length (ins src p) = 1;
  mi_O : forall p d, p <> 0 -> im s p d -> d < n0 -> length (ins src p) = 1;
  mi_vis : forall h i, In (h, i) (m_vis s) -> exists c dh dc, nth_error (outs src h) i = Some c /\ im s h dh /\ im s c dc /\ In dc (outs (m_dst s) dh);
  mi_par : forall p d, p <> 0 -> im s p d -> exists h i, In (h, i) (m_vis s) /\ nth_error (outs src h) i = Some p;
  mi_todo : forall h i, In (h, i) todo -> (exists d, im s h d) /\ i < length (outs src h);
  mi_all : forall p d i, im s p d -> i < length (outs src p) -> In (p, i) (m_vis s) \/ In (p, i) todo;
  mi_pos : forall d k, m_pos s d = Some k -> k <= length (outs (m_dst s) d);
  mi_nodup : NoDup (m_vis s);
  mi_reach : forall v, v < length (m_dst s) -> reach (m_dst s) v;
  mi_edge : forall v c, In c (outs (m_dst s) v) -> (v < n0 /\ In c (outs dst0 v)) \/ exists p i q, In (p, i) (m_vis s) /\ im s p v /\ nth_error (outs src p) i = Some q /\ im s q c
}.

(** What processChild does with the edge from [sh], mapped to [dh], to [st]. *)
Inductive pstep (s : merge) (dh st : nat) : nfa -> nat -> nat -> Prop :=
| ps_there dt : im s st dt -> In dt (outs (m_dst s) dh) -> pstep s dh st (m_dst s) dt (index_of dt (outs (m_dst s) dh))
| ps_link dt g' : im s st dt -> ~ In dt (outs (m_dst s) dh) -> insertEdge (m_dst s) dh dt (length (outs (m_dst s) dh)) = Ok g' ->
    pstep s dh st g' dt (length (outs (m_dst s) dh))
| ps_merge dt di : nth_error (m_s2d s) st = Some None -> nth_error (outs (m_dst s) dh) di = Some dt ->
    match m_pos s dh with Some p => p | None => 0 end <= di ->
    lbl (m_dst s) dt = lbl src st -> (lbl src st = NOLABEL \/ (outs src st = [] /\ outs (m_dst s) dt = [])) ->
    length (ins (m_dst s) dt) = 1 -> length (ins src st) = 1 ->
    (forall p, hd_error (m_d2s s dt) = Some p -> length (ins src p) = 1) ->
    bts (m_dst s) dt = bts src st -> pstep s dh st (m_dst s) dt di
| ps_new z g' di : nth_error (m_s2d s) st = Some None -> nth_error src st = Some z ->
    di = match m_pos s dh with None => 0 | Some _ => length (outs (m_dst s) dh) end ->
    insertEdge (copied (m_dst s) z) dh (length (m_dst s)) di = Ok g' -> pstep s dh st g' (length (m_dst s)) di.

Lemma find_merge_spec g d2s st dh : sym g -> ins g 0 = [] -> (forall v, v <> 0 -> v < length g -> bytes_at g v = Ok (bts g v)) -> st < length src ->
  (forall d p, In p (d2s d) -> p < length src) ->
  forall cands di, (forall c, In c cands -> In c (outs g dh)) ->
  match find_merge g d2s src st (bts src st) cands di with
  | Ok None => True
  | Ok (Some (k, dt)) => di <= k /\ nth_error cands (k - di) = Some dt /\ lbl g dt = lbl src st /\ (lbl src st = NOLABEL \/ (outs src st = [] /\ outs g dt = [])) /\
      length (ins g dt) = 1 /\ length (ins src st) = 1 /\ (forall p, hd_error (d2s dt) = Some p -> length (ins src p) = 1) /\ bts g dt = bts src st
  | _ => False
  end.
Proof.
  intros SY RT BY ST DS. induction cands as [|c cands IH]; intros di HC; cbn [find_merge]; auto.
  assert (C0 : In c (outs g dh)) by (apply HC; left; auto).
  assert (Cn : c <> 0). { intros ->. apply (sym_in g dh 0 SY) in C0. rewrite RT in C0. destruct C0. }
  assert (CL : c < length g) by (eapply sym_bounded; eauto).
  assert (K : exists b, canMerge g d2s c src st (bts src st) = Ok b /\ (b = true -> lbl g c = lbl src st /\ (lbl src st = NOLABEL \/ (outs src st = [] /\ outs g c = [])) /\
      length (ins g c) = 1 /\ length (ins src st) = 1 /\ (forall p, hd_error (d2s c) = Some p -> length (ins src p) = 1) /\ bts g c = bts src st)).
  { unfold canMerge. destruct (nth_lt g c CL) as (x & Ex). destruct (nth_lt src st ST) as (y & Ey). unfold get. rewrite Ex, Ey. cbn [bind].
    assert (X : lbl g c = v_label x /\ outs g c = v_out x /\ ins g c = v_in x) by (unfold lbl, outs, ins; rewrite Ex; auto). destruct X as (-> & -> & ->).
    assert (Y : lbl src st = v_label y /\ outs src st = v_out y /\ ins src st = v_in y) by (unfold lbl, outs, ins; rewrite Ey; auto). destruct Y as (-> & -> & ->).
    destruct (_ && _) eqn:EC; [|exists false; split; auto; discriminate].
    apply andb_true_iff in EC as (EC & E4). apply andb_true_iff in EC as (EC & E3). apply andb_true_iff in EC as (E1 & E2).
    apply N.eqb_eq in E1. apply Nat.eqb_eq in E3, E4.
    assert (E2' : v_label y = NOLABEL \/ v_out y = [] /\ v_out x = []).
    { apply orb_true_iff in E2 as [E2|E2]; [left; apply N.eqb_eq in E2; congruence|right]. apply andb_true_iff in E2 as (E5 & E6). apply Nat.eqb_eq in E5, E6. split; apply length_zero_iff_nil; auto. }
    destruct (d2s c) as [|p r] eqn:Ed.
    - rewrite (BY c Cn CL). cbn [bind]. eexists. split; [reflexivity|]. intros EB. apply N.eqb_eq in EB. simpl. repeat split; auto. discriminate.
    - assert (PL : p < length src) by (apply (DS c); rewrite Ed; left; auto). destruct (nth_lt src p PL) as (z & Ez). rewrite Ez. cbn [bind].
      destruct (Nat.eqb_spec (length (v_in z)) 1) as [E5|E5]; [|exists false; split; auto; discriminate].
      rewrite (BY c Cn CL). cbn [bind]. eexists. split; [reflexivity|]. intros EB. apply N.eqb_eq in EB. simpl. repeat split; auto. intros q H. injection H as <-. unfold ins. rewrite Ez. auto. }
  destruct K as (b & -> & K). cbn [bind]. destruct b.
  - split; [lia|]. rewrite Nat.sub_diag. split; [auto|]. apply K. auto.
  - specialize (IH (S di)). destruct (find_merge _ _ _ _ _ _ _) as [[[k dt]|]| | |]; auto; try (apply IH; intros; apply HC; right; auto).
    destruct IH as (I1 & I2 & I3); [intros; apply HC; right; auto|]. split; [lia|]. split; auto. replace (k - di) with (S (k - S di)) by lia. auto.
Qed.

Lemma trans_of s todo v : minv s todo -> v <> 0 -> v < length (m_dst s) -> exists t, trans_ok t /\ option_map (fun x => v_trans x) (nth_error (m_dst s) v) = Some (Some t).
Proof.
  intros M H0 HL. destruct (Nat.lt_ge_cases v n0) as [HO|HO].
  - pose proof (mi_attr _ _ M v HO) as A. unfold attrs in A. destruct (nth_lt (m_dst s) v HL) as (x & Ex). rewrite Ex in *. destruct (nth_error dst0 v) as [y|] eqn:Ey; [|discriminate].
    destruct (fk_state _ D0 v y H0 Ey) as (t & Et & T). exists t. split; auto. simpl. injection A as -> _ _. rewrite Et. auto.
  - destruct (mi_new _ _ M v (conj HO HL)) as (p & Hp & I & A). unfold attrs in A. destruct (nth_lt (m_dst s) v HL) as (x & Ex). rewrite Ex in *. destruct (nth_error src p) as [y|] eqn:Ey; [|discriminate].
    destruct (fk_state _ S0 p y Hp Ey) as (t & Et & T). exists t. split; auto. simpl. injection A as -> _ _. rewrite Et. auto.
Qed.

Lemma bytes_at_dst s todo v : minv s todo -> v <> 0 -> v < length (m_dst s) -> bytes_at (m_dst s) v = Ok (bts (m_dst s) v).
Proof.
  intros M H0 HL. destruct (trans_of s todo v M H0 HL) as (t & _ & E). unfold bytes_at, bts, get. destruct (nth_error (m_dst s) v) as [x|]; [|discriminate]. injection E as E. cbn [bind]. rewrite E. auto.
Qed.

Lemma im_lt s todo p d : minv s todo -> im s p d -> p < length src /\ d < length (m_dst s).
Proof.
  intros M I. split; [rewrite <- (mi_len _ _ M); apply nth_error_Some; unfold im in I; congruence|].
  destruct (Nat.eq_dec p 0) as [->|Hp]; [|apply (mi_im _ _ M p d I Hp)].
  pose proof (mi_im0 _ _ M) as I0. unfold im in *. rewrite I in I0. injection I0 as ->. pose proof (mi_old _ _ M). destruct (fk_root _ D0) as (x & E & _).
  assert (0 < length dst0) by (apply nth_error_Some; congruence). unfold n0 in *. lia.
Qed.

Lemma process_spec s sh si rest dh st : minv s ((sh, si) :: rest) -> im s sh dh -> nth_error (outs src sh) si = Some st ->
  exists g' dt di, pstep s dh st g' dt di /\
    forall vis, processChild src (mkM (m_dst s) (m_s2d s) (m_d2s s) (m_pos s) vis) si sh dh =
      Ok (mkM g' (m_s2d s) (m_d2s s) (fupd (m_pos s) dh (Some di)) vis, dt, st).
Proof.
  intros M I H. assert (It : In st (outs src sh)) by (eapply nth_error_In; eauto).
  destruct (edge_bounds src sh st S0 It) as (T0 & TL & HL). destruct (im_lt _ _ _ _ M I) as (_ & DL).
  unfold processChild. cbn [m_dst m_s2d m_d2s m_pos m_vis].
  destruct (nth_lt src sh HL) as (x & Ex). assert (Ox : outs src sh = v_out x) by (unfold outs; rewrite Ex; auto).
  destruct (nth_lt (m_dst s) dh DL) as (y & Ey). assert (Oy : outs (m_dst s) dh = v_out y) by (unfold outs; rewrite Ey; auto).
  destruct (nth_lt (m_s2d s) st) as (o & Eo); [rewrite (mi_len _ _ M); auto|].
  destruct o as [dt|].
  - (* mapped *) destruct (im_lt _ _ _ _ M Eo) as (_ & DTL). destruct (memb dt (outs (m_dst s) dh)) eqn:EM.
    + exists (m_dst s), dt, (index_of dt (outs (m_dst s) dh)). split; [apply ps_there; auto; apply memb_in; auto|].
      intros vis. unfold get. rewrite Ex. cbn [bind]. rewrite <- Ox, H. cbn [bind]. rewrite Eo. cbn [bind]. rewrite Ey. cbn [bind]. rewrite <- Oy, EM. reflexivity.
    + assert (NI : ~ In dt (outs (m_dst s) dh)) by (apply memb_nin; auto).
      destruct (insertEdge_spec (m_dst s) dh dt (length (outs (m_dst s) dh)) DL DTL (le_n _)) as (g' & E & _).
      exists g', dt, (length (outs (m_dst s) dh)). split; [apply ps_link; auto|].
      intros vis. unfold get. rewrite Ex. cbn [bind]. rewrite <- Ox, H. cbn [bind]. rewrite Eo. cbn [bind]. rewrite Ey. cbn [bind]. rewrite <- Oy, EM.
      destruct (index_of_spec dt (outs (m_dst s) dh)) as (_ & _ & X). rewrite (X NI), E. reflexivity.
  - (* unmapped *)
    set (start := match m_pos s dh with Some p => p | None => 0 end).
    pose proof (find_merge_spec (m_dst s) (m_d2s s) st dh (mi_sym _ _ M) (mi_root _ _ M) (fun v => bytes_at_dst s _ v M) TL) as FM.
    assert (DS : forall d p, In p (m_d2s s d) -> p < length src).
    { intros d p Hp. assert (p <> 0) by (intros ->; apply (mi_front0 _ _ M) in Hp; auto). apply (mi_front _ _ M) in Hp; auto. eapply im_lt; eauto. }
    specialize (FM DS (skipn start (outs (m_dst s) dh)) start). 
    assert (HC : forall c, In c (skipn start (outs (m_dst s) dh)) -> In c (outs (m_dst s) dh)).
    { intros c Hc. rewrite <- (firstn_skipn start (outs (m_dst s) dh)). apply in_or_app. auto. }
    specialize (FM HC). destruct (find_merge _ _ _ _ _ _ _) as [[[k dt]|]| | |] eqn:EF; try destruct FM.
    + destruct H1 as (F2 & F3 & F4 & F5 & F6 & F7 & F8). rename H0 into F1.
      assert (N : nth_error (outs (m_dst s) dh) k = Some dt).
      { rewrite <- (firstn_skipn start (outs (m_dst s) dh)). destruct (Nat.le_gt_cases start (length (outs (m_dst s) dh))) as [HS|HS].
        - rewrite nth_error_app2; rewrite firstn_length_le by auto; auto.
        - rewrite skipn_all2 in F2 by lia. destruct (k - start); discriminate. }
      exists (m_dst s), dt, k. split; [apply ps_merge; auto|].
      intros vis. unfold get. rewrite Ex. cbn [bind]. rewrite <- Ox, H. cbn [bind]. rewrite Eo. cbn [bind]. rewrite Ey. cbn [bind]. rewrite (bytes_at_bts src st S0 T0 TL). cbn [bind].
      rewrite <- Oy. fold start. rewrite EF. cbn [bind]. replace (memb dt (outs (m_dst s) dh)) with true; [reflexivity|]. symmetry. apply memb_in. eapply nth_error_In; eauto.
    + destruct (nth_lt src st TL) as (z & Ez). set (di := match m_pos s dh with None => 0 | Some _ => length (outs (m_dst s) dh) end).
      destruct (copied_spec (m_dst s) z) as (C1 & C2 & C3 & C4 & C5).
      destruct (insertEdge_spec (copied (m_dst s) z) dh (length (m_dst s)) di) as (g' & E & _); [lia|lia|rewrite C4; unfold di; destruct (m_pos s dh); lia|].
      exists g', (length (m_dst s)), di. split; [eapply ps_new; eauto|].
      intros vis. unfold get. rewrite Ex. cbn [bind]. rewrite <- Ox, H. cbn [bind]. rewrite Eo. cbn [bind]. rewrite Ey. cbn [bind]. rewrite (bytes_at_bts src st S0 T0 TL). cbn [bind].
      rewrite <- Oy. fold start. rewrite EF. cbn [bind]. rewrite Ez. cbn [bind].
      replace (memb (length (m_dst s)) (outs (m_dst s) dh)) with false.
      * replace (match m_pos s dh with Some p => Nat.max p (length (outs (m_dst s) dh)) | None => 0 end) with di; [fold (copied (m_dst s) z); rewrite E; reflexivity|].
        unfold di. destruct (m_pos s dh) as [p|] eqn:EP; auto. apply (mi_pos _ _ M) in EP. lia.
      * symmetry. apply memb_nin. intros X. apply (sym_bounded _ _ _ (mi_sym _ _ M)) in X. lia.
Qed.

Definition after (s : merge) (sh si dh st : nat) (g' : nfa) (dt di : nat) : merge :=
  mkM g' (upd (m_s2d s) st (Some dt)) (fupd (m_d2s s) dt (m_d2s s dt ++ [st])) (fupd (m_pos s) dh (Some di)) ((sh, si) :: m_vis s).

Lemma im_after s sh si dh st g' dt di p d : length (m_s2d s) = length src -> st < length src ->
  im (after s sh si dh st g' dt di) p d <-> (p = st /\ d = dt) \/ (p <> st /\ im s p d).
Proof.
  intros L H. unfold im, after. cbn [m_s2d]. destruct (Nat.eq_dec p st) as [->|Hn].
  - rewrite nth_upd_same by lia. split; [intros E; injection E as ->; auto|intros [(_ & ->)|(X & _)]; [auto|congruence]].
  - rewrite nth_upd_other by auto. split; [auto|intros [(X & _)|(_ & X)]; [congruence|auto]].
Qed.

(** What happens to the graph *)
Record gstep (s : merge) (dh st : nat) (g' : nfa) (dt di : nat) : Prop := {
  gs_len : length g' = length (m_dst s) \/ (length g' = S (length (m_dst s)) /\ dt = length (m_dst s) /\ attrs g' dt = attrs src st /\ nth_error (m_s2d s) st = Some None);
  gs_attr : forall v, v < length (m_dst s) -> attrs g' v = attrs (m_dst s) v;
  gs_other : forall v, v <> dh -> outs g' v = outs (m_dst s) v;
  gs_head : (In dt (outs (m_dst s) dh) /\ outs g' dh = outs (m_dst s) dh /\ nth_error (outs (m_dst s) dh) di = Some dt) \/
            (~ In dt (outs (m_dst s) dh) /\ outs g' dh = spliced di (outs (m_dst s) dh) [dt] /\ di <= length (outs (m_dst s) dh) /\ n0 <= dt);
  gs_sym : sym g';
  gs_tail : dt <> 0 /\ dt < length g' /\ bts g' dt = bts src st /\ lbl g' dt = lbl src st /\ mat g' dt = mat src st
}.

Lemma lt_n0 : 0 < n0.
Proof. destruct (fk_root _ D0) as (x & E & _). apply nth_error_Some. congruence. Qed.

Lemma match_src v : mat src v = true <-> lbl src v <> NOLABEL.
Proof. apply match_label; auto. Qed.

Lemma label_match_dst s todo v : minv s todo -> v < length (m_dst s) -> mat (m_dst s) v = true <-> lbl (m_dst s) v <> NOLABEL.
Proof.
  intros M HL. destruct (Nat.lt_ge_cases v n0) as [HO|HO].
  - rewrite (mat_attrs dst0), (lbl_attrs dst0) by (apply (mi_attr _ _ M); auto). apply match_label; auto.
  - destruct (mi_new _ _ M v (conj HO HL)) as (p & Hp & I & _). destruct (mi_im _ _ M p v I Hp) as (_ & _ & _ & -> & ->). apply match_src.
Qed.

Section Step.
Variables (s : merge) (sh si dh st : nat) (rest : list (nat * nat)) (g' : nfa) (dt di : nat).
Hypothesis M : minv s ((sh, si) :: rest).
Hypothesis Ih : im s sh dh.
Hypothesis Hst : nth_error (outs src sh) si = Some st.
Hypothesis NV : ~ In (sh, si) (m_vis s).
Hypothesis P : pstep s dh st g' dt di.

Lemma st_bounds : st <> 0 /\ st < length src /\ sh < length src.
Proof. apply (edge_bounds src sh); auto. eapply nth_error_In; eauto. Qed.

Lemma dh_lt : dh < length (m_dst s).
Proof. eapply im_lt; eauto. Qed.

(** a state mapped before is entered by another edge *)
Lemma mapped_in d : im s st d -> length (ins src st) <> 1.
Proof.
  intros I. destruct (mi_par _ _ M st d) as (h & i & Hv & Hn); auto; [apply st_bounds|].
  eapply (two_edges src h i sh si st); eauto; [apply S0|]. intros E. injection E as -> ->. auto.
Qed.

Lemma step_graph : gstep s dh st g' dt di.
Proof.
  destruct st_bounds as (T0 & TL & HL). pose proof dh_lt as DL.
  inversion P as [dt1 Im Hin E1 E2 E3|dt1 g1 Im Hin Hins E1 E2 E3|dt1 di1 Un Hn Hle Hl Hl2 Hd Hs Hf Hb E1 E2 E3|z g1 di1 Un Hz Hdi Hins E1 E2 E3]; subst.
  - destruct (mi_im _ _ M st dt Im T0) as (I1 & I2 & I3 & I4 & I5). split; auto.
    + left. split; auto. split; auto. destruct (index_of_spec dt (outs (m_dst s) dh)) as (_ & X & _). apply X; auto.
    + apply (mi_sym _ _ M).
  - destruct (mi_im _ _ M st dt Im T0) as (I1 & I2 & I3 & I4 & I5).
    destruct (insertEdge_spec (m_dst s) dh dt (length (outs (m_dst s) dh)) DL I2 (le_n _)) as (g2 & E & L & A & O & I). rewrite Hins in E. injection E as <-. split.
    + left. auto.
    + auto.
    + intros v Hv. rewrite O. destruct (Nat.eqb_spec v dh); [congruence|auto].
    + right. split; auto. split; [rewrite O, Nat.eqb_refl; auto|]. split; auto.
      destruct (Nat.lt_ge_cases dt n0) as [HO|]; auto. exfalso. apply (mapped_in dt Im). apply (mi_O _ _ M st dt); auto.
    + eapply insert_sym; [apply (mi_sym _ _ M)|exact O|exact I].
    + rewrite (bts_attrs (m_dst s)), (lbl_attrs (m_dst s)), (mat_attrs (m_dst s)) by auto. repeat split; auto. lia.
  - assert (Hin : In dt (outs (m_dst s) dh)) by (eapply nth_error_In; eauto). pose proof (sym_bounded _ _ _ (mi_sym _ _ M) Hin) as DT.
    split; auto; [apply (mi_sym _ _ M)|]. split; [|split; auto; split; auto; split; auto].
    + intros ->. apply (sym_in _ dh 0 (mi_sym _ _ M)) in Hin. rewrite (mi_root _ _ M) in Hin. destruct Hin.
    + pose proof (label_match_dst _ _ dt M DT) as X. pose proof (match_src st) as Y. rewrite Hl in X. destruct (mat (m_dst s) dt), (mat src st); intuition congruence.
  - destruct (copied_spec (m_dst s) z) as (C1 & C2 & C3 & C4 & C5). set (di := match m_pos s dh with None => 0 | Some _ => length (outs (m_dst s) dh) end) in *.
    assert (Hdi : di <= length (outs (m_dst s) dh)) by (unfold di; destruct (m_pos s dh); lia).
    destruct (insertEdge_spec (copied (m_dst s) z) dh (length (m_dst s)) di) as (g2 & E & L & A & O & I); [lia|lia|rewrite C4; auto|]. rewrite Hins in E. injection E as <-.
    assert (AT : attrs g' (length (m_dst s)) = attrs src st) by (rewrite A, C3; unfold attrs; rewrite Hz; auto). split.
    + right. split; [lia|]. split; auto.
    + intros v Hv. rewrite A. auto.
    + intros v Hv. rewrite O. destruct (Nat.eqb_spec v dh); [congruence|auto].
    + right. split; [intros X; apply (sym_bounded _ _ _ (mi_sym _ _ M)) in X; lia|]. split; [rewrite O, Nat.eqb_refl, C4; auto|]. split; auto. apply (mi_old _ _ M).
    + eapply insert_sym; [|exact O|exact I]. intros h u. rewrite C4, C5. apply (mi_sym _ _ M).
    + assert (0 < length (m_dst s)) by (pose proof (mi_old _ _ M); pose proof lt_n0; lia). split; [lia|]. split; [lia|].
      unfold bts, lbl, mat. unfold attrs in AT. rewrite Hz in *. destruct (nth_error g' (length (m_dst s))); [|discriminate]. injection AT as -> -> ->. auto.
Qed.

Lemma pcases : im s st dt \/
  (nth_error (m_s2d s) st = Some None /\ nth_error (outs (m_dst s) dh) di = Some dt /\ length (ins (m_dst s) dt) = 1 /\ length (ins src st) = 1 /\
   (forall p, hd_error (m_d2s s dt) = Some p -> length (ins src p) = 1) /\ (lbl src st = NOLABEL \/ (outs src st = [] /\ outs (m_dst s) dt = [])) /\
   match m_pos s dh with Some p => p | None => 0 end <= di) \/
  (nth_error (m_s2d s) st = Some None /\ dt = length (m_dst s)).
Proof. destruct P; auto 12. Qed.

Let s' := after s sh si dh st g' dt di.

Lemma gs_grow : length (m_dst s) <= length g'.
Proof. destruct (gs_len _ _ _ _ _ _ step_graph) as [->|(-> & _)]; lia. Qed.

Lemma gs_edges v c : In c (outs g' v) <-> In c (outs (m_dst s) v) \/ (v = dh /\ c = dt).
Proof.
  destruct (Nat.eq_dec v dh) as [->|Hn].
  - destruct (gs_head _ _ _ _ _ _ step_graph) as [(I & -> & _)|(_ & -> & _)].
    + split; [auto|intros [|(_ & ->)]; auto].
    + rewrite in_spliced. simpl. split; [intros [|[<-|[]]]; auto|intros [|(_ & ->)]; auto].
  - rewrite (gs_other _ _ _ _ _ _ step_graph) by auto. split; [auto|intros [|(X & _)]; [auto|congruence]].
Qed.

Lemma im_step p d : im s' p d <-> (p = st /\ d = dt) \/ (p <> st /\ im s p d).
Proof. apply im_after; [apply (mi_len _ _ M)|apply st_bounds]. Qed.

Lemma st_old d : im s st d -> d = dt.
Proof.
  intros I. destruct pcases as [Im|[(Un & _)|(Un & _)]]; unfold im in *; congruence.
Qed.

Lemma im_keep p d : im s p d -> im s' p d.
Proof. intros I. apply im_step. destruct (Nat.eq_dec p st) as [->|]; auto. left. split; auto. apply st_old; auto. Qed.

Lemma new_unmapped d p : im s p d -> d < length (m_dst s).
Proof. intros I. eapply im_lt; eauto. Qed.

Lemma step_J p d e : p <> 0 -> im s' p d -> In d (outs g' e) -> exists q, In p (outs src q) /\ im s' q e.
Proof.
  intros Hp I E. apply gs_edges in E. apply im_step in I as [(-> & ->)|(Hn & I)].
  - assert (X : e = dh -> exists q, In st (outs src q) /\ im s' q e).
    { intros ->. exists sh. split; [eapply nth_error_In; eauto|apply im_keep; auto]. }
    destruct E as [E|(-> & _)]; auto.
    destruct pcases as [Im|[(Un & Hn & Hd & Hs & Hf & _)|(Un & E2)]].
    + destruct (mi_J _ _ M st dt e Hp Im E) as (q & Hq & Iq). exists q. split; auto. apply im_keep; auto.
    + apply X. apply nth_error_In in Hn. apply (sym_in _ _ _ (mi_sym _ _ M)) in Hn, E. destruct (ins (m_dst s) dt) as [|a [|? ?]]; try discriminate. simpl in *. intuition congruence.
    + apply (sym_bounded _ _ _ (mi_sym _ _ M)) in E. lia.
  - assert (K : forall q, im s q e -> In p (outs src q) -> exists q, In p (outs src q) /\ im s' q e) by (intros q Iq Hq; exists q; split; auto; apply im_keep; auto).
    destruct E as [E|(-> & ->)].
    + destruct (mi_J _ _ M p d e Hp I E) as (q & Hq & Iq). eauto.
    + pose proof (new_unmapped _ _ I) as DL. destruct (in_dec Nat.eq_dec dt (outs (m_dst s) dh)) as [Hin|Hin].
      { destruct (mi_J _ _ M p dt dh Hp I Hin) as (q & Hq & Iq). eauto. }
      destruct pcases as [Im|[(Un & Hn' & Hd & Hs & Hf & _)|(Un & E2)]]; try lia.
      * exfalso. apply (mapped_in dt Im). apply (mi_S _ _ M st p dt); auto. apply st_bounds.
      * destruct Hin. eapply nth_error_In; eauto.
Qed.

Lemma step_S p p' d : p <> 0 -> p' <> 0 -> im s' p d -> im s' p' d -> p <> p' -> length (ins src p) = 1.
Proof.
  intros Hp Hp' I I' Hn. apply im_step in I as [(-> & ->)|(Hn1 & I)]; apply im_step in I' as [(-> & E)|(Hn2 & I')]; try congruence.
  - pose proof (new_unmapped _ _ I') as DL.
    destruct pcases as [Im|[(Un & Hn' & Hd & Hs & Hf & _)|(Un & E2)]]; try lia; auto.
    apply (mi_S _ _ M st p' dt); auto.
  - subst d. pose proof (new_unmapped _ _ I) as DL.
    destruct pcases as [Im|[(Un & Hn' & Hd & Hs & Hf & _)|(Un & E2)]]; try lia; auto.
    + apply (mi_S _ _ M p st dt); auto.
    + pose proof I as I2. apply (mi_front _ _ M) in I2; auto. destruct (m_d2s s dt) as [|q r] eqn:Ed; [destruct I2|].
      specialize (Hf q eq_refl). destruct (Nat.eq_dec p q) as [->|Hq]; auto.
      assert (Q0 : q <> 0) by (intros ->; apply (mi_front0 _ _ M dt); rewrite Ed; left; auto).
      assert (Iq : im s q dt) by (apply (mi_front _ _ M); auto; rewrite Ed; left; auto). apply (mi_S _ _ M p q dt); auto.
  - apply (mi_S _ _ M p p' d); auto.
Qed.

Lemma step_O p d : p <> 0 -> im s' p d -> d < n0 -> length (ins src p) = 1.
Proof.
  intros Hp I Hd. apply im_step in I as [(-> & ->)|(_ & I)]; [|eapply (mi_O _ _ M); eauto].
  destruct pcases as [Im|[(Un & Hn' & Hd' & Hs & Hf & _)|(Un & E2)]]; auto.
  - eapply (mi_O _ _ M); eauto.
  - pose proof (mi_old _ _ M). lia.
Qed.

Lemma filter_spliced (f : nat -> bool) k l x : f x = false -> filter f (spliced k l [x]) = filter f l.
Proof. intros H. unfold spliced. rewrite !filter_app. simpl. rewrite H. simpl. rewrite <- filter_app, firstn_skipn. auto. Qed.

Lemma spliced_length k l x : length (spliced k l [x]) = S (length l).
Proof. unfold spliced. rewrite !app_length. simpl. pose proof (f_equal (@length nat) (firstn_skipn k l)) as E. rewrite app_length in E. lia. Qed.

Lemma step_minv : minv s' (out_pairs src st ++ rest).
Proof.
  pose proof step_graph as G. destruct st_bounds as (T0 & TL & HL). pose proof dh_lt as DL. pose proof gs_grow as GG.
  destruct (gs_tail _ _ _ _ _ _ G) as (DT0 & DTL & DT1 & DT2 & DT3).
  assert (KA : forall v, v < length (m_dst s) -> bts g' v = bts (m_dst s) v /\ lbl g' v = lbl (m_dst s) v /\ mat g' v = mat (m_dst s) v).
  { intros v Hv. pose proof (gs_attr _ _ _ _ _ _ G v Hv) as A. rewrite (bts_attrs _ _ _ A), (lbl_attrs _ _ _ A), (mat_attrs _ _ _ A). auto. }
  split; cbn [m_dst m_s2d m_d2s m_pos m_vis s' after].
  - unfold s', after. cbn [m_s2d]. rewrite upd_length. apply (mi_len _ _ M).
  - unfold s', after; cbn [m_dst]. pose proof (mi_old _ _ M). lia.
  - intros v Hv. pose proof (mi_old _ _ M). rewrite (gs_attr _ _ _ _ _ _ G) by lia. apply (mi_attr _ _ M); auto.
  - apply (gs_sym _ _ _ _ _ _ G).
  - destruct (ins g' 0) as [|h r] eqn:Ei; auto. exfalso. assert (X : In 0 (outs g' h)) by (apply (sym_in _ _ _ (gs_sym _ _ _ _ _ _ G)); rewrite Ei; left; auto).
    apply gs_edges in X as [X|(_ & X)]; [|congruence]. apply (sym_in _ _ _ (mi_sym _ _ M)) in X. rewrite (mi_root _ _ M) in X. destruct X.
  - intros v Hv. destruct (Nat.eq_dec v dh) as [->|Hn]; [|rewrite (gs_other _ _ _ _ _ _ G) by auto; apply (mi_filter _ _ M); auto].
    destruct (gs_head _ _ _ _ _ _ G) as [(_ & -> & _)|(_ & -> & _ & HD)]; [apply (mi_filter _ _ M); auto|].
    rewrite filter_spliced by (apply Nat.ltb_ge; auto). apply (mi_filter _ _ M); auto.
  - intros v c Hv Hc. apply gs_edges in Hc as [Hc|(-> & ->)]; [eapply (mi_newfrom _ _ M); eauto|].
    destruct (gs_head _ _ _ _ _ _ G) as [(Hc & _)|(_ & _ & _ & HD)]; [eapply (mi_newfrom _ _ M); eauto|auto].
  - apply im_keep, (mi_im0 _ _ M).
  - intros p d I Hp. apply im_step in I as [(-> & ->)|(_ & I)].
    + split; auto.
    + destruct (mi_im _ _ M p d I Hp) as (I1 & I2 & I3). destruct (KA d I2) as (-> & -> & ->). split; auto. split; [lia|auto].
  - intros d Hd. destruct (Nat.lt_ge_cases d (length (m_dst s))) as [HO|HO].
    + destruct (mi_new _ _ M d) as (p & Hp & I & A); [lia|]. exists p. split; auto. split; [apply im_keep; auto|]. rewrite (gs_attr _ _ _ _ _ _ G) by auto. auto.
    + destruct (gs_len _ _ _ _ _ _ G) as [E|(E & E2 & A & _)]; [lia|]. replace d with dt by lia. exists st. split; auto. split; auto. apply im_step. auto.
  - intros p d Hp. rewrite im_step. unfold fupd. destruct (Nat.eqb_spec d dt) as [->|Hn].
    + rewrite in_app_iff, <- (mi_front _ _ M) by auto. simpl. destruct (Nat.eq_dec p st) as [->|]; [tauto|]. split; [intros [(? & _)|(_ & ?)]; [congruence|auto]|]. intros [?|[?|[]]]; [auto|congruence].
    + rewrite <- (mi_front _ _ M) by auto. split; [intros [(_ & ?)|(_ & ?)]; [congruence|auto]|]. intros I. right. split; auto. intros ->. apply st_old in I. congruence.
  - intros d. unfold fupd. destruct (Nat.eqb_spec d dt) as [->|Hn]; [|apply (mi_front0 _ _ M)]. rewrite in_app_iff. intros [X|[X|[]]]; [apply (mi_front0 _ _ M) in X; auto|congruence].
  - apply step_J.
  - apply step_S.
  - apply step_O.
  - intros h i [E|Hv].
    + injection E as <- <-. exists st, dh, dt. split; auto. split; [apply im_keep; auto|]. split; [apply im_step; auto|]. apply gs_edges. auto.
    + destruct (mi_vis _ _ M h i Hv) as (c & d1 & d2 & H1 & H2 & H3 & H4). exists c, d1, d2. split; auto. split; [apply im_keep; auto|]. split; [apply im_keep; auto|]. apply gs_edges. auto.
  - intros p d Hp I. apply im_step in I as [(-> & ->)|(_ & I)]; [exists sh, si; split; auto; left; auto|].
    destruct (mi_par _ _ M p d Hp I) as (h & i & H1 & H2). exists h, i. split; auto. right; auto.
  - intros h i H. apply in_app_or in H as [H|H].
    + unfold out_pairs in H. apply in_map_iff in H as (k & E & Hk). injection E as <- <-. apply in_seq in Hk. split; [exists dt; apply im_step; auto|lia].
    + destruct (mi_todo _ _ M h i (or_intror H)) as ((d & I) & Hl). split; auto. exists d. apply im_keep; auto.
  - intros p d i I Hl. apply im_step in I as [(-> & ->)|(_ & I)].
    + right. apply in_or_app. left. unfold out_pairs. apply in_map, in_seq. lia.
    + destruct (mi_all _ _ M p d i I Hl) as [H|[E|H]]; [left; right; auto|left; left; auto|right; apply in_or_app; auto].
  - intros d k. unfold fupd. destruct (Nat.eqb_spec d dh) as [->|Hn].
    + intros E. injection E as <-. destruct (gs_head _ _ _ _ _ _ G) as [(_ & -> & H)|(_ & -> & H & _)]; [apply Nat.lt_le_incl, nth_error_Some; congruence|rewrite spliced_length; lia].
    + intros E. rewrite (gs_other _ _ _ _ _ _ G) by auto. eapply (mi_pos _ _ M); eauto.
  - constructor; auto. apply (mi_nodup _ _ M).
  - assert (RK : forall v, v < length (m_dst s) -> reach g' v).
    { intros v Hv. pose proof (mi_reach _ _ M v Hv) as R. clear Hv. induction R as [|v c R IHR Hc]; [constructor|]. eapply reach_step; [exact IHR|]. apply gs_edges. auto. }
    intros v Hv. destruct (Nat.lt_ge_cases v (length (m_dst s))) as [HO|HO]; auto.
    destruct (gs_len _ _ _ _ _ _ G) as [E|(E & E2 & _)]; [lia|]. replace v with dt by lia. eapply reach_step; [apply RK, DL|]. apply gs_edges. auto.
  - intros v c Hc. apply gs_edges in Hc as [Hc|(-> & ->)].
    + destruct (mi_edge _ _ M v c Hc) as [?|(p & i & q & H0 & H1 & H2 & H3)]; auto. right. exists p, i, q. split; [right; auto|]. split; [apply im_keep; auto|]. split; auto. apply im_keep; auto.
    + right. exists sh, si, st. split; [left; auto|]. split; [apply im_keep; auto|]. split; [auto|]. apply im_step. auto.
Qed.
End Step.

(** * The whole loop *)

Definition all_pairs : list (nat * nat) := flat_map (out_pairs src) (seq 0 (length src)).
Definition merge_fuel : nat := length all_pairs + length all_pairs * length all_pairs.

Lemma in_out_pairs g h i : In (h, i) (out_pairs g h) <-> i < length (outs g h).
Proof. unfold out_pairs. rewrite in_map_iff. split; [intros (k & E & Hk); injection E as <-; apply in_seq in Hk; lia|]. intros H. exists i. split; auto. apply in_seq. lia. Qed.

Lemma in_all_pairs h i : i < length (outs src h) -> In (h, i) all_pairs.
Proof.
  intros H. unfold all_pairs. apply in_flat_map. exists h. split; [|apply in_out_pairs; auto]. apply in_seq. split; [lia|]. simpl.
  destruct (Nat.lt_ge_cases h (length src)); auto. rewrite outs_none in H by auto. simpl in H. lia.
Qed.

Lemma out_pairs_le v : length (out_pairs src v) <= length all_pairs.
Proof.
  apply NoDup_incl_length.
  - unfold out_pairs. apply FinFun.Injective_map_NoDup; [intros a b E; injection E; auto|apply seq_NoDup].
  - intros [h i] H. unfold out_pairs in H. apply in_map_iff in H as (k & E & Hk). injection E as <- <-. apply in_seq in Hk. apply in_all_pairs. lia.
Qed.

Lemma minv_skip s p rest : minv s (p :: rest) -> In p (m_vis s) -> minv s rest.
Proof.
  intros M H. destruct M as [a1 a2 a3 a4 a5 a6 a7 a8 a9 a10 a11 a12 a13 a14 a15 a16 a17 a18 a19 a20 a21 a22 a23]. split; auto.
  - intros h i Hi. apply a18. right; auto.
  - intros q d i I Hi. destruct (a19 q d i I Hi) as [|[->|]]; auto.
Qed.

Lemma merge_loop_spec (X : merge -> list (nat * nat) -> Prop) :
  (forall s p rest, minv s (p :: rest) -> X s (p :: rest) -> In p (m_vis s) -> X s rest) ->
  (forall s sh si rest dh st g' dt di, minv s ((sh, si) :: rest) -> X s ((sh, si) :: rest) -> im s sh dh -> nth_error (outs src sh) si = Some st ->
     ~ In (sh, si) (m_vis s) -> pstep s dh st g' dt di -> X (after s sh si dh st g' dt di) (out_pairs src st ++ rest)) ->
  forall fuel s todo, minv s todo -> X s todo -> length todo + (length all_pairs - length (m_vis s)) * length all_pairs <= fuel ->
  exists s', merge_loop fuel src s todo = Ok s' /\ minv s' [] /\ X s' [].
Proof.
  intros Hskip Hstep. induction fuel as [|fuel IH]; intros s todo M HX HF.
  - destruct todo as [|p rest]; [exists s; auto|]. cbn [length] in HF. exfalso. revert HF. generalize ((length all_pairs - length (m_vis s)) * length all_pairs). lia.
  - destruct todo as [|[sh si] rest]; cbn [merge_loop]; [exists s; auto|].
    destruct (mi_todo _ _ M sh si (or_introl eq_refl)) as ((dh & I) & Hl). unfold get. rewrite I. cbn [bind].
    destruct (existsb (pair_eqb (sh, si)) (m_vis s)) eqn:EV.
    + assert (V : In (sh, si) (m_vis s)).
      { apply existsb_exists in EV as ([a b] & Hab & Q). unfold pair_eqb in Q. simpl in Q. apply andb_true_iff in Q as (Q1 & Q2). apply Nat.eqb_eq in Q1, Q2. subst. auto. }
      apply IH; [eapply minv_skip; eauto|eapply Hskip; eauto|]. simpl in HF. lia.
    + assert (NV : ~ In (sh, si) (m_vis s)).
      { intros V. assert (X' : existsb (pair_eqb (sh, si)) (m_vis s) = true); [|congruence]. apply existsb_exists. exists (sh, si). split; auto. unfold pair_eqb. simpl. rewrite !Nat.eqb_refl. auto. }
      destruct (nth_lt (outs src sh) si Hl) as (st & Hst).
      destruct (process_spec s sh si rest dh st M I Hst) as (g' & dt & di & PS & PE). rewrite PE. cbn [bind m_s2d m_dst m_d2s m_pos m_vis].
      destruct (st_bounds sh si st Hst) as (T0 & TL & _).
      unfold set_at. rewrite (mi_len _ _ M). replace (st <? length src) with true by (symmetry; apply Nat.ltb_lt; auto). cbn [bind].
      fold (after s sh si dh st g' dt di). apply IH.
      * eapply step_minv; eauto.
      * eapply Hstep; eauto.
      * rewrite app_length. cbn [after m_vis]. simpl in HF. simpl length. pose proof (out_pairs_le st).
        assert (V : length ((sh, si) :: m_vis s) <= length all_pairs).
        { apply NoDup_incl_length; [constructor; auto; apply (mi_nodup _ _ M)|]. intros [h i] [E|Hv].
          - injection E as <- <-. apply in_all_pairs; auto.
          - destruct (mi_vis _ _ M h i Hv) as (c & _ & _ & Hc & _). apply in_all_pairs. apply nth_error_Some. congruence. }
        simpl in V. replace (length all_pairs - length (m_vis s)) with (S (length all_pairs - S (length (m_vis s)))) in HF by lia. lia.
Qed.

Definition start : merge := mkM dst0 (upd (repeat None (length src)) 0 (Some 0)) (fun _ => []) (fun _ => None) [].

Lemma lt_src : 0 < length src.
Proof. destruct (fk_root _ S0) as (x & E & _). apply nth_error_Some. congruence. Qed.

Lemma start_im p d : im start p d <-> p = 0 /\ d = 0.
Proof.
  unfold im, start. cbn [m_s2d]. pose proof lt_src. destruct p as [|p].
  - rewrite nth_upd_same by (rewrite repeat_length; auto). split; [intros E; injection E as <-; auto|intros (_ & ->); auto].
  - rewrite nth_upd_other by auto. split; [|intros (? & _); discriminate]. intros E. assert (X : In (Some d) (repeat (@None nat) (length src))) by (eapply nth_error_In; eauto). apply repeat_spec in X. discriminate.
Qed.

Lemma start_minv : minv start (out_pairs src 0).
Proof.
  split; cbn [start m_dst m_s2d m_d2s m_pos m_vis].
  - unfold start. cbn [m_s2d]. rewrite upd_length, repeat_length. auto.
  - auto.
  - auto.
  - apply D0.
  - destruct (fk_root _ D0) as (x & E & _ & _ & _ & I). unfold ins. rewrite E. auto.
  - intros v Hv. assert (Q : forall c, In c (outs dst0 v) -> c < n0) by (intros c Hc; eapply sym_bounded; eauto; apply D0).
    induction (outs dst0 v) as [|c l IH]; simpl; auto. replace (c <? n0) with true; [f_equal; apply IH; intros; apply Q; right; auto|]. symmetry. apply Nat.ltb_lt, Q. left; auto.
  - intros v c Hv Hc. apply outs_in in Hc. unfold n0 in *. lia.
  - apply start_im. auto.
  - intros p d I Hp. apply start_im in I. lia.
  - intros d Hd. unfold n0 in *. lia.
  - intros p d Hp. rewrite start_im. split; [lia|intros []].
  - auto.
  - intros p d e Hp I. apply start_im in I. lia.
  - intros p p' d Hp _ I. apply start_im in I. lia.
  - intros p d Hp I. apply start_im in I. lia.
  - intros h i [].
  - intros p d Hp I. apply start_im in I. lia.
  - intros h i H. unfold out_pairs in H. apply in_map_iff in H as (k & E & Hk). injection E as <- <-. apply in_seq in Hk. split; [exists 0; apply start_im; auto|lia].
  - intros p d i I Hi. apply start_im in I as (-> & ->). right. apply in_out_pairs. auto.
  - discriminate.
  - constructor.
  - exact R0.
  - intros v c Hc. left. split; auto. apply outs_in in Hc. auto.
Qed.

Lemma merge_spec (X : merge -> list (nat * nat) -> Prop) fuel :
  (forall s p rest, minv s (p :: rest) -> X s (p :: rest) -> In p (m_vis s) -> X s rest) ->
  (forall s sh si rest dh st g' dt di, minv s ((sh, si) :: rest) -> X s ((sh, si) :: rest) -> im s sh dh -> nth_error (outs src sh) si = Some st ->
     ~ In (sh, si) (m_vis s) -> pstep s dh st g' dt di -> X (after s sh si dh st g' dt di) (out_pairs src st ++ rest)) ->
  X start (out_pairs src 0) -> merge_fuel <= fuel ->
  exists s, mergeIntoFSM fuel dst0 src = Ok (m_dst s) /\ minv s [] /\ X s [].
Proof.
  intros H1 H2 H3 HF. destruct (merge_loop_spec X H1 H2 fuel start (out_pairs src 0) start_minv H3) as (s & E & M & HX).
  - simpl. pose proof (out_pairs_le 0). unfold merge_fuel in HF. rewrite Nat.sub_0_r. lia.
  - exists s. split; auto. unfold mergeIntoFSM, set_at. rewrite repeat_length. pose proof lt_src as L. apply Nat.ltb_lt in L. rewrite L. cbn [bind]. fold start. rewrite E. reflexivity.
Qed.

(** * What the finished automaton accepts *)

(** Reading [w] from [v] can lead to [d]. *)
Inductive path (g : nfa) (v : nat) : list N -> nat -> Prop :=
| path_nil : path g v [] v
| path_snoc : forall w u b d, path g v w u -> In d (outs g u) -> enters g d b = true -> path g v (w ++ [b]) d.

Lemma path_cons g v c b w d : In c (outs g v) -> enters g c b = true -> path g c w d -> path g v (b :: w) d.
Proof.
  intros Hc Hb H. induction H as [|w u b' d H IH Hd Hb'].
  - apply (path_snoc g v [] v b c); auto. constructor.
  - change (b :: w ++ [b']) with ((b :: w) ++ [b']). eapply path_snoc; eauto.
Qed.

Lemma path_uncons g v : forall w d, path g v w d -> forall b w', w = b :: w' -> exists c, In c (outs g v) /\ enters g c b = true /\ path g c w' d.
Proof.
  intros w d H. induction H as [|w u b' d H IH Hd Hb']; intros b w' E; [discriminate|].
  destruct w as [|b0 w].
  - simpl in E. injection E as -> <-. inversion H; subst; [|destruct w; discriminate]. exists d. split; auto. split; auto. constructor.
  - simpl in E. injection E as -> <-. destruct (IH b w eq_refl) as (c & H1 & H2 & H3). exists c. split; auto. split; auto. eapply path_snoc; eauto.
Qed.

(** In automata whose match states are the ones with a label *)
Lemma accepts_path g l : (forall v x, nth_error g v = Some x -> (v_match x = true <-> v_label x <> NOLABEL)) ->
  forall w lab v, accepts g l lab w v <-> exists d, path g v w d /\ mat g d = true /\ lbl g d = l.
Proof.
  intros ML. induction w as [|b w IH]; intros lab v; split.
  - intros H. inversion H as [? ? x E M N|]; subst. exists v. split; [constructor|]. unfold mat, lbl. rewrite E. split; auto. unfold newlab. apply (ML _ _ E) in M. destruct (N.eqb_spec (v_label x) NOLABEL); congruence.
  - intros (d & H & M & L). inversion H; subst; [|destruct w; discriminate]. unfold mat, lbl in *. destruct (nth_error g d) as [x|] eqn:E; [|discriminate].
    eapply acc_match; [exact E|auto|]. unfold newlab. apply (ML _ _ E) in M. destruct (N.eqb_spec (v_label x) NOLABEL); congruence.
  - intros H. inversion H as [|? ? x ? ? c E Hc Hb H']; subst. apply IH in H' as (d & H1 & H2 & H3). exists d. split; auto. apply path_cons with c; auto. unfold outs. rewrite E. auto.
  - intros (d & H & M & L). destruct (path_uncons g v _ d H b w eq_refl) as (c & H1 & H2 & H3). unfold outs in H1. destruct (nth_error g v) as [x|] eqn:E; [|destruct H1].
    eapply acc_step; [exact E|exact H1|exact H2|]. apply IH. exists d. auto.
Qed.

Section Done.
Variable s : merge.
Hypothesis M : minv s [].
Let g := m_dst s.

Lemma done_ok : fsm_ok g.
Proof.
  assert (L0 : 0 < length g) by (pose proof (mi_old _ _ M); pose proof lt_n0; unfold g; lia).
  split.
  - destruct (fk_root _ D0) as (x0 & E0 & T0 & M0 & L1 & _). pose proof (mi_attr _ _ M 0 lt_n0) as A. unfold attrs in A. rewrite E0 in A. fold g in A.
    destruct (nth_error g 0) as [x|] eqn:E; [|discriminate]. injection A as A1 A2 A3. exists x. rewrite A1, A2, A3. repeat split; auto.
    pose proof (mi_root _ _ M) as R. unfold ins in R. fold g in R. rewrite E in R. auto.
  - intros v x Hv E. destruct (trans_of s [] v M Hv) as (t & T & Et); [apply nth_error_Some; fold g; congruence|]. fold g in Et. rewrite E in Et. injection Et as Et. eauto.
  - intros v x Hv E Ho. assert (VL : v < length g) by (apply nth_error_Some; congruence). destruct (Nat.lt_ge_cases v n0) as [HO|HO].
    + pose proof (mi_attr _ _ M v HO) as A. unfold attrs in A. fold g in A. rewrite E in A. destruct (nth_error dst0 v) as [y|] eqn:Ey; [|discriminate]. injection A as _ -> _.
      apply (fk_leaf _ D0 v y Hv Ey). pose proof (mi_filter _ _ M v HO) as F. unfold outs in F. fold g in F. rewrite E, Ey, Ho in F. auto.
    + destruct (mi_new _ _ M v (conj HO VL)) as (p & Hp & I & A). unfold attrs in A. fold g in A. rewrite E in A. destruct (nth_error src p) as [y|] eqn:Ey; [|discriminate]. injection A as _ -> _.
      apply (fk_leaf _ S0 p y Hp Ey). destruct (v_out y) as [|c r] eqn:Eo; auto. exfalso.
      destruct (mi_all _ _ M p v 0 I) as [V|[]]; [unfold outs; rewrite Ey, Eo; simpl; lia|].
      destruct (mi_vis _ _ M p 0 V) as (c' & dh & dc & _ & I' & _ & Hin). unfold im in *. rewrite I in I'. injection I' as <-. unfold outs in Hin. fold g in Hin. rewrite E, Ho in Hin. destruct Hin.
  - intros v x E. pose proof (label_match_dst s [] v M) as X. unfold mat, lbl in X. fold g in X. rewrite E in X. apply X. apply nth_error_Some. congruence.
  - apply (mi_sym _ _ M).
Qed.
End Done.
End Merge.
