(** Code generation succeeds: no exception, no access outside a table, termination. *)
From Verif Require Import Base InstrModel NfaModel CodegenModel CodegenSpec CodegenLayout CodegenCode CodegenFilter.
From Verif Require Import VmModel VmGeneric.
Open Scope N_scope.

(** Conditions under which code generation succeeds, besides [good] and [fits32]. *)
Record compilable (g : nfa) : Prop := {
  cp_nodup : forall v x, nth_error g v = Some x -> NoDup (v_out x);
  cp_labels : forall v x, nth_error g v = Some x -> v_label x = NOLABEL \/ v_label x < two24;
  cp_len : N.of_nat (length g) < two24;
  cp_match : exists v x, nth_error g v = Some x /\ v_match x = true
}.

(** * The second pass *)

Lemma lt_nth {A} (l : list A) i : (i < length l)%nat -> exists a, nth_error l i = Some a.
Proof. intros H. destruct (nth_error l i) eqn:E; eauto. apply nth_error_None in E. lia. Qed.

Lemma set_at_lt {A} (l : list A) i a : (i < length l)%nat -> set_at l i a = Ok (upd l i a).
Proof. intros H. unfold set_at. apply Nat.ltb_lt in H. rewrite H. auto. Qed.

Lemma pivot_total g K v : good g K -> exists tbl, pivotStates g v = Ok tbl.
Proof.
  intros G. apply pivot_loop_total. intros t Ht. destruct (gd_edge _ _ G v t Ht) as (H0 & Hl).
  destruct (lt_nth g t Hl) as (x & Ex). destruct (gd_state _ _ G t x H0 Ex) as ((tr & Et & _) & _). eauto.
Qed.

Lemma calc_total g K v od : good g K -> exists o, calcJumpTableSize g v od = Ok o.
Proof.
  intros G. unfold calcJumpTableSize. destruct (3 <? od)%nat; eauto. destruct (pivot_total g K v G) as (tbl & ->).
  cbn [bind]. destruct (maxOutbound tbl <? od)%nat; eauto.
Qed.

Lemma finish_vertex_total g K h v : good g K -> (v < length g)%nat -> length (h_ranks h) = length g -> length (h_snips h) = length g ->
  exists h1, finish_vertex g h v = Ok h1 /\ length (h_ranks h1) = length g /\ length (h_snips h1) = length g.
Proof.
  intros G Hv Hr Hs. unfold finish_vertex.
  destruct (lt_nth g v Hv) as (x & Ex). destruct (lt_nth (h_snips h) v ltac:(lia)) as (s & Es).
  unfold get at 1 2. rewrite Ex, Es. cbn [bind].
  assert (exists ev, (if (v =? 0)%nat then Ok 0 else match v_trans x with Some t => Ok (numInstructions t) | None => UB end) = Ok ev) as (ev & ->).
  { destruct (Nat.eqb_spec v 0); eauto. destruct (gd_state _ _ G v x n Ex) as ((t & -> & _) & _). eauto. }
  cbn [bind].
  assert (exists jt, (if (length (v_out x) =? 0)%nat then Ok None else calcJumpTableSize g v (length (v_out x))) = Ok jt) as (jt & ->).
  { destruct (length (v_out x) =? 0)%nat; eauto. eapply calc_total; eauto. }
  cbn [bind].
  match goal with |- exists h1, (bind ?e _) = _ /\ _ => assert (exists oo, e = Ok oo) as (oo & ->) end.
  { destruct (v_out x) as [|c r] eqn:Eo; eauto.
    destruct ((length (c :: r) <? 4)%nat || ((match jt with Some n => n | None => 0 end) =? 0)); eauto.
    assert (Hc: edge g v c) by (unfold edge; rewrite (edge_outs _ _ _ Ex), Eo; left; auto).
    destruct (gd_edge _ _ G _ _ Hc) as (_ & Hcl).
    destruct (get_lt (h_ranks h) v ltac:(lia)) as (rv & ->). destruct (get_lt (h_ranks h) c ltac:(lia)) as (rc & ->).
    cbn [bind]. eauto. }
  cbn [bind]. rewrite set_at_lt by lia. cbn [bind]. eexists. split; [reflexivity|]. simpl. rewrite upd_length. auto.
Qed.

Lemma finish_all_total g K : good g K -> forall order h, (forall v, In v order -> (v < length g)%nat) ->
  length (h_ranks h) = length g -> length (h_snips h) = length g -> exists h1, finish_all g h order = Ok h1.
Proof.
  intros G. induction order as [|v order IH]; intros h Hlt Hr Hs; simpl; eauto.
  destruct (finish_vertex_total g K h v G) as (h1 & -> & H1 & H2); auto. { apply Hlt; left; auto. }
  cbn [bind]. apply IH; auto. intros; apply Hlt; right; auto.
Qed.

Lemma undisc_le disc : (undisc disc <= length disc)%nat.
Proof. unfold undisc. apply filter_length_le. Qed.

Lemma undisc_repeat n : (0 < n)%nat -> (undisc (upd (repeat false n) 0 true) + 1 <= n)%nat.
Proof.
  intros H. destruct n as [|n]; [lia|]. unfold undisc. simpl.
  pose proof (filter_length_le negb (repeat false n)) as X. rewrite repeat_length in X. lia.
Qed.

Lemma specialVisit_total g K fuel : good g K -> fits32 g -> (length g <= fuel)%nat -> exists h order, specialVisit fuel g = Ok (h, order).
Proof.
  intros G HF Hf. unfold specialVisit.
  destruct (gd_root _ _ G) as (x0 & E0 & _).
  assert (Hlen: (0 < length g)%nat) by (apply nth_error_Some; congruence).
  rewrite set_at_lt by (rewrite repeat_length; auto). cbn [bind].
  set (disc := upd (repeat false (length g)) 0 true).
  assert (Hd0: nth_error disc 0 = Some true) by (apply nth_upd_same; rewrite repeat_length; auto).
  assert (Hq: forall v, In v [0%nat] -> nth_error disc v = Some true) by (intros v [<-|[]]; auto).
  destruct (visit_total g (fun v c He => proj2 (gd_edge _ _ G v c He)) fuel (helper_new (length g)) disc [0%nat]) as (h & order & Ev).
  - unfold disc. rewrite upd_length, repeat_length. auto.
  - apply repeat_length.
  - apply repeat_length.
  - constructor; [easy|constructor].
  - auto.
  - pose proof (undisc_repeat (length g) Hlen). fold disc in H. simpl. lia.
  - rewrite Ev. cbn [bind].
    destruct (visit_ok _ _ _ _ _ _ _ Ev) as (V1 & V2 & V3 & V4 & V5 & V6); auto.
    { constructor; [easy|constructor]. }
    assert (Hall: forall v, In v order -> (v < length g)%nat).
    { intros v Hv. assert (Hx: (v < length disc)%nat).
      { apply nth_error_Some. destruct (V3 v Hv) as [[<-|[]]|Hn]; congruence. }
      unfold disc in Hx. rewrite upd_length, repeat_length in Hx. auto. }
    assert (Hfl := fits32_length g HF).
    assert (D: disc_inv g h ([] ++ order)).
    { eapply discover_all_inv; eauto using disc_inv_new.
      - intros v x Hx. apply (gd_label _ _ G v x Hx).
      - assert (length order <= length g)%nat by (apply NoDup_lt_length; auto).
        simpl. unfold two32, NONE32 in *. lia. }
    simpl in D.
    destruct (finish_all_total g K G order h) as (h1 & ->); auto.
    + apply (di_len1 _ _ _ D).
    + apply (di_len2 _ _ _ D).
    + cbn [bind]. eauto.
Qed.

(** * Sizes of jump tables *)

Definition ind_sum (tbl : table) : N :=
  fold_right (fun (c : list nat) n => if (1 <? length c)%nat then N.of_nat (length c) + n else n) 0 tbl.

Lemma ind_sum_app a b : ind_sum (a ++ b) = ind_sum a + ind_sum b.
Proof.
  induction a as [|c a IH]; auto. change (ind_sum ((c :: a) ++ b)) with (if (1 <? length c)%nat then N.of_nat (length c) + ind_sum (a ++ b) else ind_sum (a ++ b)).
  change (ind_sum (c :: a)) with (if (1 <? length c)%nat then N.of_nat (length c) + ind_sum a else ind_sum a).
  rewrite IH. destruct (1 <? length c)%nat; lia.
Qed.

Lemma ind_sum_nil (tbl : table) : (forall c, In c tbl -> c = []) -> ind_sum tbl = 0.
Proof.
  induction tbl as [|c tbl IH]; intros H; auto.
  change (ind_sum (c :: tbl)) with (if (1 <? length c)%nat then N.of_nat (length c) + ind_sum tbl else ind_sum tbl).
  rewrite (H c) by (left; auto). simpl. apply IH. intros; apply H; right; auto.
Qed.

Lemma skipn_skipn' {A} (l : list A) : forall a b, skipn a (skipn b l) = skipn (b + a) l.
Proof.
  induction l as [|x l IH]; intros a b; [rewrite !skipn_nil; auto|].
  destruct b; auto. simpl. auto.
Qed.

Lemma in_firstn_nth {A} (d : A) (l : list A) n c : In c (firstn n l) -> exists i, (i < n)%nat /\ (i < length l)%nat /\ nth i l d = c.
Proof.
  intros H. apply (In_nth _ _ d) in H. destruct H as (i & Hi & E). rewrite firstn_length in Hi. exists i.
  split; [lia|]. split; [lia|]. rewrite <- E. rewrite <- (firstn_skipn n l) at 1. rewrite app_nth1; auto. rewrite firstn_length. lia.
Qed.

Lemma in_skipn_nth {A} (d : A) (l : list A) n c : In c (skipn n l) -> exists i, (n <= i)%nat /\ (i < length l)%nat /\ nth i l d = c.
Proof.
  intros H. apply (In_nth _ _ d) in H. destruct H as (i & Hi & E). rewrite skipn_length in Hi. exists (n + i)%nat.
  split; [lia|]. split; [lia|]. rewrite <- E. rewrite <- (firstn_skipn n l) at 1. rewrite app_nth2; rewrite firstn_length; [|lia].
  f_equal. lia.
Qed.

Lemma ind_sum_window (tbl : table) f l : (f <= l)%nat ->
  (forall i, (i < length tbl)%nat -> nth i tbl [] <> [] -> (f <= i <= l)%nat) ->
  ind_sum (firstn (l + 1 - f) (skipn f tbl)) = ind_sum tbl.
Proof.
  intros Hfl H. rewrite <- (firstn_skipn f tbl) at 2. rewrite <- (firstn_skipn (l + 1 - f) (skipn f tbl)) at 2.
  rewrite !ind_sum_app, skipn_skipn'. replace (f + (l + 1 - f))%nat with (l + 1)%nat by lia.
  rewrite (ind_sum_nil (firstn f tbl)), (ind_sum_nil (skipn (l + 1) tbl)); [lia| |].
  - intros c Hc. apply (in_skipn_nth []) in Hc. destruct Hc as (i & H1 & H2 & H3).
    destruct c; auto. specialize (H i H2). rewrite H3 in H. specialize (H ltac:(discriminate)). lia.
  - intros c Hc. apply (in_firstn_nth []) in Hc. destruct Hc as (i & H1 & H2 & H3).
    destruct c; auto. specialize (H i H2). rewrite H3 in H. specialize (H ltac:(discriminate)). lia.
Qed.

Lemma landing_total g sn v : length sn = length g -> (v < length g)%nat -> (forall c, edge g v c -> (c < length g)%nat) ->
  exists a, figureOutLanding g sn v = Ok a.
Proof.
  intros Hs Hv He. unfold figureOutLanding. destruct (lt_nth g v Hv) as (x & Ex). unfold get at 1. rewrite Ex. cbn [bind].
  destruct ((length (v_out x) =? 1)%nat && (v_label x =? NONE32) && negb (v_match x)) eqn:E.
  - apply andb_true_iff in E. destruct E as (E & _). apply andb_true_iff in E. destruct E as (E & _). apply Nat.eqb_eq in E.
    destruct (v_out x) as [|c [|]] eqn:Eo; simpl in E; try lia. simpl hd.
    assert (Hc: (c < length sn)%nat). { rewrite Hs. apply He. unfold edge. rewrite (edge_outs _ _ _ Ex), Eo. left; auto. }
    destruct (get_lt sn c Hc) as (s & ->). cbn [bind]. eauto.
  - destruct (get_lt sn v ltac:(lia)) as (s & ->). cbn [bind]. eauto.
Qed.

Lemma indirect_len l r : length (indirect (l :: r)) = (2 * S (length r))%nat.
Proof. unfold indirect. rewrite app_length, flat_map_pairs by reflexivity. rewrite rev_length. simpl. lia. Qed.

Lemma jump_cells_total g sn : (forall v c, edge g v c -> (c < length g)%nat) -> length sn = length g ->
  forall cells ind, (forall c v, In c cells -> In v c -> (v < length g)%nat) ->
  exists t i, jump_cells g sn cells ind = Ok (t, i) /\ length t = length cells /\ N.of_nat (length i) = 2 * ind_sum cells.
Proof.
  intros He Hs.
  assert (HL: forall v, (v < length g)%nat -> exists a, figureOutLanding g sn v = Ok a).
  { intros v Hv. apply landing_total; auto. intros c. apply He. }
  induction cells as [|c cells IH]; intros ind Hc; [exists [], []; auto|].
  assert (Hcs: forall c0 v, In c0 cells -> In v c0 -> (v < length g)%nat) by (intros; eapply Hc; [right|]; eauto).
  cbn [jump_cells]. destruct c as [|v [|v2 r]].
  - destruct (IH ind Hcs) as (t & i & -> & H1 & H2). cbn [bind]. exists (makeRaw32 0 :: t), i. split; auto. split; [simpl; auto|auto].
  - destruct (HL v) as (a & ->). { apply (Hc [v]); left; auto. }
    cbn [bind]. destruct (IH ind Hcs) as (t & i & -> & H1 & H2). cbn [bind]. exists (makeRaw32 a :: t), i. split; auto. split; [simpl; auto|auto].
  - match goal with |- context [bind (?f r) _] => assert (HG: forall vs, (forall u, In u vs -> (u < length g)%nat) -> exists ls, f vs = Ok ls /\ length ls = length vs) end.
    { induction vs as [|u vs IHv]; intros Hu; [exists []; auto|].
      destruct (HL u) as (a & ->). { apply Hu; left; auto. }
      cbn [bind]. destruct IHv as (ls & -> & Hl). { intros; apply Hu; right; auto. }
      cbn [bind]. exists (a :: ls). simpl. auto. }
    assert (Hv: forall u, In u (v :: v2 :: r) -> (u < length g)%nat) by (intros u Hu; apply (Hc (v :: v2 :: r)); auto; left; auto).
    destruct (HL v) as (a & ->). { apply Hv; left; auto. }
    destruct (HL v2) as (a2 & ->). { apply Hv; right; left; auto. }
    destruct (HG r) as (ls & -> & Hl). { intros u Hu. apply Hv. right; right; auto. }
    cbn [bind].
    destruct (IH (ind + N.of_nat (length (indirect (a :: a2 :: ls)))) Hcs) as (t & i & -> & H1 & H2). cbn [bind].
    eexists _, _. split; [reflexivity|]. split; [simpl; auto|].
    rewrite app_length, indirect_len. 
    change (ind_sum ((v :: v2 :: r) :: cells)) with (N.of_nat (length (v :: v2 :: r)) + ind_sum cells).
    rewrite Nat2N.inj_add, H2. cbn [length]. rewrite <- Hl. lia.
Qed.

(** With duplicate-free successors a jump table spans at least two bytes. *)
Lemma maxOutbound_ge tbl i : (i < length tbl)%nat -> (length (nth i tbl []) <= maxOutbound tbl)%nat.
Proof.
  revert i. induction tbl as [|c tbl IH]; intros i H; [simpl in H; lia|].
  change (maxOutbound (c :: tbl)) with (Nat.max (length c) (maxOutbound tbl)).
  destruct i as [|i]; simpl nth; [lia|]. simpl in H. specialize (IH i ltac:(lia)). lia.
Qed.

Lemma filter_all {A} (f : A -> bool) l : (forall a, In a l -> f a = true) -> filter f l = l.
Proof. induction l as [|a l IH]; simpl; intros H; auto. rewrite (H a) by auto. rewrite IH; auto. Qed.

Lemma one_byte_false g K v x tbl k : good g K -> nth_error g v = Some x -> NoDup (v_out x) -> pivotStates g v = Ok tbl ->
  (k < 256)%nat -> (forall i, (i < 256)%nat -> nth i tbl [] <> [] -> i = k) -> (maxOutbound tbl < length (v_out x))%nat -> False.
Proof.
  intros G Ex Hnd Ep Hk Hone Hm.
  pose proof Ep as Hlen. apply pivot_loop_ok in Hlen; [|apply repeat_length]. destruct Hlen as (Hlen & _).
  pose proof (maxOutbound_ge tbl k ltac:(lia)) as Hge.
  rewrite (pivot_cell g v tbl k Ep Hk), (edge_outs _ _ _ Ex) in Hge.
  rewrite filter_all, dedup_nodup in Hge; auto.
  { simpl in Hge. lia. }
  intros c Hc. assert (He: edge g v c) by (unfold edge; rewrite (edge_outs _ _ _ Ex); auto).
  destruct (gd_edge _ _ G _ _ He) as (Hc0 & Hcl). destruct (lt_nth g c Hcl) as (y & Ey).
  destruct (gd_state _ _ G c y Hc0 Ey) as ((t & Et & Ht) & _).
  destruct (trans_nonempty t Ht) as (b & Hb & Ha).
  assert (En: enters g c b = true) by (unfold enters; rewrite Ey, Et; auto).
  assert (Hb': N.to_nat b = k).
  { apply Hone; [lia|]. rewrite (pivot_cell g v tbl _ Ep) by lia. rewrite N2Nat.id. intros Hnil.
    assert (Hin: In c (fold_left dedup_add (filter (has_byte g b) (outs g v)) [])); [|rewrite Hnil in Hin; easy].
    apply dedup_in. right. apply filter_In. split; [auto|]. rewrite has_byte_enters. auto. }
  rewrite has_byte_enters, <- Hb', N2Nat.id. auto.
Qed.

Lemma mm_first (u : list nat) d f la : u <> [] ->
  (match u with [] => 0%nat | i :: _ => i end, if (match u with [] => 0%nat | i :: _ => i end <? last u 0)%nat then last u 0%nat else 255%nat) = (f, la) ->
  f = hd d u /\ la = if (f <? last u 0)%nat then last u 0%nat else 255%nat.
Proof.
  intros Hu H. assert (E: f = match u with [] => 0%nat | i :: _ => i end) by congruence.
  split; [rewrite E; destruct u; easy|]. rewrite E. congruence.
Qed.

Lemma minAndMax_spec tbl f la : used tbl <> [] -> minAndMax tbl = (f, la) ->
  f = first_used tbl /\ la = if (f <? last_used tbl)%nat then last_used tbl else 255%nat.
Proof. exact (mm_first (used tbl) 256 f la). Qed.

Lemma jt_total g K v x sn start n : good g K -> nth_error g v = Some x -> NoDup (v_out x) -> length sn = length g ->
  257 + 512 * N.of_nat (length (v_out x)) < two32 ->
  calcJumpTableSize g v (length (v_out x)) = Ok (Some n) ->
  exists ws, createJumpTable g sn v start = Ok ws /\ N.of_nat (length ws) = n.
Proof.
  intros G Ex Hnd Hs Hsm Hcalc.
  unfold calcJumpTableSize in Hcalc. destruct (Nat.ltb_spec 3 (length (v_out x))) as [Hod|]; [|discriminate].
  inv_bind Hcalc. rename x0 into tbl. destruct (Nat.ltb_spec (maxOutbound tbl) (length (v_out x))) as [Hmo|]; [|discriminate].
  fold (ind_sum tbl) in Hcalc. injection Hcalc as Hn.
  pose proof E as Hlen. apply pivot_loop_ok in Hlen; [|apply repeat_length]. destruct Hlen as (Hlen & _).
  assert (Hu: used tbl <> []).
  { intros Hu. apply (one_byte_false g K v x tbl 0 G Ex Hnd E); auto; [lia|].
    intros i Hi Hne. apply (in_used tbl i Hi) in Hne. rewrite Hu in Hne. destruct Hne. }
  destruct (used_span tbl Hu) as ((Hs1 & Hs2) & _ & _).
  assert (Hlt: (first_used tbl < last_used tbl)%nat).
  { destruct (Nat.eq_dec (first_used tbl) (last_used tbl)) as [Heq|]; [|lia]. exfalso.
    apply (one_byte_false g K v x tbl (first_used tbl) G Ex Hnd E); auto; [lia|].
    intros i Hi Hne. apply (in_used tbl i Hi) in Hne.
    pose proof (used_first tbl i Hne). pose proof (used_last tbl i Hne). lia. }
  assert (Hin: forall i, (i < length tbl)%nat -> nth i tbl [] <> [] -> (first_used tbl <= i <= last_used tbl)%nat).
  { intros i Hi Hne. rewrite Hlen in Hi. apply (in_used tbl i Hi) in Hne. split; [apply used_first|apply used_last]; auto. }
  unfold createJumpTable. rewrite E. cbn [bind].
  destruct (minAndMax tbl) as [f la] eqn:Emm. destruct (minAndMax_spec tbl f la Hu Emm) as (Ef & Ela).
  rewrite <- Ef in *. apply Nat.ltb_lt in Hlt as Hlt'. rewrite Hlt' in Ela. rewrite <- Ela in *.
  unfold makeJumpTableRange, makeRange. destruct (N.ltb_spec (N.of_nat la) (N.of_nat f)); [lia|]. cbn [bind].
  destruct (jump_cells_total g sn (fun v c He => proj2 (gd_edge _ _ G v c He)) Hs (firstn (la + 1 - f) (skipn f tbl)) (start + 2 + N.of_nat (la - f)))
    as (t & i & -> & Ht & Hi).
  { intros c u Hc Hu'. assert (Hc': In c tbl).
    { rewrite <- (firstn_skipn f tbl). apply in_or_app. right. rewrite <- (firstn_skipn (la + 1 - f) (skipn f tbl)). apply in_or_app. left. auto. }
    apply (In_nth _ _ []) in Hc'. destruct Hc' as (k & Hk & Ek). rewrite (pivot_cell g v tbl k E ltac:(lia)) in Ek. subst c.
    apply dedup_in in Hu'. destruct Hu' as [[]|Hu']. apply filter_In in Hu'. apply (gd_edge _ _ G v u). apply Hu'. }
  cbn [bind]. eexists. split; [reflexivity|]. cbn [length]. rewrite app_length.
  rewrite ind_sum_window in Hi by (auto; lia). rewrite firstn_length, skipn_length, Hlen in Ht.
  assert (Hbig: ind_sum tbl <= 256 * N.of_nat (length (v_out x))).
  { pose proof (ind_bound (length (v_out x)) tbl) as Hb. rewrite Hlen in Hb. apply Hb. intros k Hk.
    pose proof (maxOutbound_ge tbl k ltac:(lia)). lia. }
  replace ((N.of_nat la + two32 - N.of_nat f) mod two32) with (N.of_nat la - N.of_nat f) in Hn by (unfold two32; lia).
  rewrite N.mod_small in Hn by lia. lia.
Qed.

(** * Writing the states *)

Lemma write_total : forall ws a prog, (a + length ws <= length prog)%nat -> exists p, write ws a prog = Ok p.
Proof.
  induction ws as [|w ws IH]; intros a prog H; simpl; eauto. simpl in H.
  rewrite set_at_lt by lia. cbn [bind]. apply IH. rewrite upd_length. lia.
Qed.

Lemma map_res_total {A B} (f : A -> res B) l : (forall a, In a l -> exists b, f a = Ok b) -> exists m, map_res f l = Ok m.
Proof.
  induction l as [|a l IH]; intros H; simpl; eauto. destruct (H a) as (b & ->); [left; auto|].
  destruct IH as (m & ->); [intros; apply H; right; auto|]. cbn [bind]. eauto.
Qed.

Section Write.
Variables (g : nfa) (K : nat -> N) (h : helper) (order : list nat).
Hypothesis G : good g K.
Hypothesis HF : fits32 g.
Hypothesis L : layout g h order.
Hypothesis CP : compilable g.

Lemma toInstruction_total t : trans_ok t -> exists ws, toInstruction t = Ok ws.
Proof.
  destruct t as [b|b1 b2|f l|s]; simpl; eauto. intros (H1 & H2). destruct ((f =? 0) && (l =? 255)); eauto.
  unfold makeRange. destruct (N.ltb_spec l f); [lia|]. cbn [bind]. eauto.
Qed.

Lemma raw24_total n : n < two24 -> exists w, makeRaw24 n = Ok w.
Proof. intros H. unfold makeRaw24. destruct (N.leb_spec two24 n); [lia|]. eauto. Qed.

Lemma snips_len : length (h_snips h) = length g.
Proof. apply (ly_slen _ _ _ L). Qed.

Lemma ranks_get v : (v < length g)%nat -> exists r, get (h_ranks h) v = Ok r.
Proof.
  intros Hv. apply (ly_all _ _ _ L) in Hv. destruct (In_nth_error _ _ Hv) as (k & Hk).
  unfold get. rewrite (ly_rank _ _ _ L _ _ Hk). eauto.
Qed.

Lemma encodeState_total v : (v < length g)%nat -> exists ws, encodeState g h v = Ok (ws, true).
Proof.
  intros Hv. destruct (ly_snip _ _ _ L v Hv) as (x & s & Ex & Es & Hst & So & Hck & _).
  unfold encodeState. unfold get at 1 2. rewrite Ex, Es. cbn [bind].
  match goal with |- exists ws, (bind ?e _) = _ => assert (exists pre, e = Ok pre) as (pre & Epre) end.
  { destruct (v_trans x) as [t|] eqn:Et; eauto.
    assert (Hv0: v <> 0%nat). { intros ->. destruct (gd_root _ _ G) as (x' & E' & Et' & _). congruence. }
    destruct (gd_state _ _ G v x Hv0 Ex) as ((t' & Et' & Ht) & _). assert (t' = t) by congruence. subst t'.
    destruct (toInstruction_total t Ht) as (ev & ->). cbn [bind].
    assert (exists lab, (if v_label x =? NONE32 then Ok [] else w <- makeLabel (v_label x);; Ok [w]) = Ok lab) as (lab & ->).
    { destruct (N.eqb_spec (v_label x) NONE32) as [|Hne]; eauto. destruct (cp_labels _ CP v x Ex) as [|Hl]; [contradiction|].
      unfold makeLabel. destruct (raw24_total _ Hl) as (w & ->). cbn [bind]. eauto. }
    cbn [bind].
    assert (exists chk, (if sn_check s =? NONE32 then Ok [] else w <- makeCheckHalt (sn_check s);; Ok [w]) = Ok chk) as (chk & ->).
    { destruct (N.eqb_spec (sn_check s) NONE32) as [|Hne]; eauto. destruct Hck as [|Hc]; [contradiction|].
      pose proof (ly_maxCheck _ _ _ L). pose proof (cp_len _ CP).
      unfold makeCheckHalt. destruct (raw24_total (sn_check s)) as (w & ->); [lia|]. cbn [bind]. eauto. }
    cbn [bind]. eauto. }
  rewrite Epre. cbn [bind].
  destruct (sn_jt s) eqn:Ejt.
  - destruct (so_other _ _ _ _ _ So) as (oo & Eo & Hoo). rewrite Ejt in Hoo. destruct Hoo as (Hpos & Hcalc).
    pose proof (bnd_small g v Hv HF) as Hb. unfold bnd in Hb. rewrite (edge_outs _ _ _ Ex) in Hb.
    destruct (jt_total g K v x (h_snips h) (sn_start s + N.of_nat (length pre)) oo G Ex (cp_nodup _ CP v x Ex) snips_len ltac:(lia) Hcalc) as (ws & Ews & Hlen).
    rewrite Ews. cbn [bind]. exists (pre ++ ws). f_equal. f_equal. apply N.eqb_eq.
    (* the length of what precedes *)
    assert (Hpre: N.of_nat (length pre) = sn_eval s + (if v_label x =? NONE32 then 0 else 1) + (if v_match x then (if (length (v_out x) =? 0)%nat then 2 else 3) else 0) + (if sn_check s =? NONE32 then 0 else 1)).
    { pose proof (so_eval _ _ _ _ _ So) as S1. destruct (Nat.eqb_spec v 0) as [->|Hv0].
      - destruct (root_snip g K h order G L) as (x' & s' & Ex' & Es' & R1 & R2 & R3 & R4 & R5 & R6).
        rewrite Ex in Ex'. injection Ex' as <-. rewrite Es in Es'. injection Es' as <-.
        rewrite R1 in Epre. injection Epre as <-. rewrite R2, R3, R5, R6. reflexivity.
      - destruct S1 as (t & Et & S1). rewrite Et in Epre. inv_bind Epre. inv_bind Epre. inv_bind Epre.
        injection Epre as <-. rewrite !app_length. apply toInstruction_length in E.
        assert (El: N.of_nat (length x1) = if v_label x =? NONE32 then 0 else 1).
        { destruct (v_label x =? NONE32); [injection E0 as <-; auto|]. inv_bind E0. injection E0 as <-. auto. }
        assert (Ec: N.of_nat (length x2) = if sn_check s =? NONE32 then 0 else 1).
        { destruct (sn_check s =? NONE32); [injection E1 as <-; auto|]. inv_bind E1. injection E1 as <-. auto. }
        rewrite S1, <- E, <- El, <- Ec. unfold makeFork. destruct (v_match x); [destruct (v_out x)|]; simpl length; simpl Nat.eqb; cbn iota; lia. }
    pose proof (seg_end g h order L v Hv) as He. unfold start, len, size_at in He. rewrite Es in He. unfold sn_size in He.
    pose proof (ly_bound _ _ _ L). unfold guard in He. unfold sn_end. rewrite N.mod_small by lia. lia.
  - destruct (v_out x) as [|c r] eqn:Eo; eauto.
    assert (Hlt: forall u, In u (c :: r) -> (u < length g)%nat).
    { intros u Hu. apply (gd_edge _ _ G v u). unfold edge. rewrite (edge_outs _ _ _ Ex), Eo. auto. }
    destruct (map_res_total (fun t => st <- get (h_snips h) t ;; Ok (sn_start st)) r) as (starts & ->).
    { intros a Ha. destruct (get_lt (h_snips h) a) as (st & ->). { rewrite snips_len. apply Hlt; right; auto. } cbn [bind]. eauto. }
    cbn [bind]. destruct (get_lt (h_snips h) c) as (sc & ->). { rewrite snips_len. apply Hlt; left; auto. }
    cbn [bind]. unfold targetCodeFollowsSource. destruct (ranks_get v Hv) as (rv & ->).
    destruct (ranks_get c) as (rc & ->). { apply Hlt; left; auto. }
    cbn [bind]. eauto.
Qed.

Lemma encode_all_total : forall vs prog, (forall v, In v vs -> (v < length g)%nat) -> (guard h <= length prog)%nat ->
  exists p, encode_all g h vs prog = Ok p.
Proof.
  induction vs as [|v vs IH]; intros prog Hlt Hl; simpl; eauto.
  assert (Hv: (v < length g)%nat) by (apply Hlt; left; auto).
  destruct (lt_nth (h_snips h) v) as (s & Es). { rewrite snips_len. auto. }
  unfold get. rewrite Es. cbn [bind]. destruct (encodeState_total v Hv) as (ws & E). rewrite E. cbn [bind].
  pose proof (encode_length g K h order G L v ws Hv E) as Hws. pose proof (seg_end g h order L v Hv) as He.
  destruct (write_total ws (N.to_nat (sn_start s)) prog) as (p & Ep).
  { unfold start in He. rewrite Es in He. lia. }
  rewrite Ep. cbn [bind]. apply IH; [intros; apply Hlt; right; auto|]. apply write_ok in Ep. destruct Ep as (-> & _). auto.
Qed.
End Write.

(** * The filter *)

(** A simple path to each state. *)
Inductive path (g : nfa) : nat -> list nat -> Prop :=
| path_root : path g 0 [0%nat]
| path_step : forall v p c, path g v p -> edge g v c -> path g c (c :: p).

Lemma path_cut g v p : path g v p -> forall c, In c p -> exists q, path g c q /\ exists r, p = r ++ q.
Proof.
  induction 1 as [|v p c H IH He]; intros u Hu.
  - destruct Hu as [<-|[]]. exists [0%nat]. split; [constructor|exists []; auto].
  - destruct Hu as [<-|Hu].
    + exists (c :: p). split; [econstructor; eauto|exists []; auto].
    + destruct (IH u Hu) as (q & Hq & r & ->). exists q. split; auto. exists (c :: r). auto.
Qed.

Lemma reach_path g v : reach g v -> exists p, path g v p /\ NoDup p.
Proof.
  induction 1 as [|v c H (p & Hp & Hn) He].
  - exists [0%nat]. split; [constructor|]. constructor; [easy|constructor].
  - destruct (in_dec Nat.eq_dec c p) as [Hin|Hni].
    + destruct (path_cut _ _ _ Hp c Hin) as (q & Hq & r & ->). exists q. split; auto.
      clear -Hn. induction r as [|a r IH]; auto. apply IH. inversion Hn; auto.
    + exists (c :: p). split; [econstructor; eauto|constructor; auto].
Qed.

Lemma path_in g K v p : good g K -> path g v p -> forall u, In u p -> (u < length g)%nat.
Proof.
  intros G. induction 1 as [|v p c H IH He]; intros u Hu.
  - destruct Hu as [<-|[]]. destruct (gd_root _ _ G) as (x & E & _). apply nth_error_Some. congruence.
  - destruct Hu as [<-|Hu]; auto. apply (gd_edge _ _ G _ _ He).
Qed.

Definition hlt (x y : N * nat) : Prop := fst x < fst y \/ (fst x = fst y /\ (snd x < snd y)%nat).

Fixpoint ssorted (s : list (N * nat)) : Prop :=
  match s with [] => True | y :: r => (forall z, In z r -> hlt y z) /\ ssorted r end.

Lemma hlt_trans x y z : hlt x y -> hlt y z -> hlt x z.
Proof. unfold hlt. lia. Qed.

Lemma heap_add_ssorted x s : ssorted s -> ssorted (heap_add x s).
Proof.
  induction s as [|z s IH]; intros H; simpl; [split; auto; intros ? []|].
  destruct H as (H1 & H2).
  destruct ((fst x <? fst z) || ((fst x =? fst z) && (snd x <? snd z)%nat)) eqn:E.
  - assert (Hxz: hlt x z). { unfold hlt. apply orb_true_iff in E. rewrite andb_true_iff, N.ltb_lt, N.eqb_eq, Nat.ltb_lt in E. lia. }
    simpl. split; auto. intros y [<-|Hy]; auto. apply (hlt_trans _ z); auto.
  - destruct ((fst x =? fst z) && (snd x =? snd z)%nat) eqn:E2; [simpl; auto|]. simpl. split; auto.
    intros y Hy. apply heap_add_in in Hy. destruct Hy as [->|Hy]; auto.
    apply orb_false_iff in E. destruct E as (E & E3). apply N.ltb_ge in E.
    destruct (N.eqb_spec (fst x) (fst z)) as [Heq|Hne]; [|left; lia].
    simpl in *. apply Nat.ltb_ge in E3. apply Nat.eqb_neq in E2. right. lia.
Qed.

Lemma heap_adds_s d ts : forall s, ssorted s -> ssorted (fold_left (fun s t => heap_add (d, t) s) ts s) /\
  forall y, In y (fold_left (fun s t => heap_add (d, t) s) ts s) <-> In y s \/ (fst y = d /\ In (snd y) ts).
Proof.
  induction ts as [|t ts IH]; intros s Hs; simpl.
  - split; auto. intuition.
  - destruct (IH _ (heap_add_ssorted (d, t) s Hs)) as (H1 & H2). split; auto. intros y. rewrite H2, heap_add_in.
    destruct y as [k v]. simpl. split.
    + intros [[H|H]|(H & H')]; auto. injection H as -> ->. auto.
    + intros [H|(H & [H'|H'])]; auto. subst. auto.
Qed.

Section Pairs.
Variables (g : nfa) (K : nat -> N).
Hypothesis G : good g K.
Hypothesis Hfl : N.of_nat (length g) + 4 < two32.

Lemma trans_at_total v c : edge g v c -> exists t, trans_at g c = Ok t.
Proof.
  intros He. destruct (gd_edge _ _ G _ _ He) as (H0 & Hl). destruct (lt_nth g c Hl) as (x & Ex).
  destruct (gd_state _ _ G c x H0 Ex) as ((t & Et & _) & _). unfold trans_at, get. rewrite Ex. cbn [bind]. rewrite Et. eauto.
Qed.

Lemma pairs_second_total first v : forall ts bits, (forall t, In t ts -> edge g v t) -> exists bits', pairs_second g first ts bits = Ok bits'.
Proof.
  induction ts as [|t ts IH]; intros bits H; simpl; eauto.
  destruct (trans_at_total v t) as (tr & ->); [apply H; left; auto|]. cbn [bind]. apply IH. intros; apply H; right; auto.
Qed.

Lemma pairs_first_total v : forall ts bits, (forall t, In t ts -> edge g v t) -> exists bits', pairs_first g ts bits = Ok bits'.
Proof.
  induction ts as [|t ts IH]; intros bits H; simpl; eauto.
  assert (He: edge g v t) by (apply H; left; auto).
  destruct (trans_at_total v t He) as (tr & ->). cbn [bind]. destruct (gd_edge _ _ G _ _ He) as (_ & Hl).
  destruct (lt_nth g t Hl) as (x & Ex). unfold get. rewrite Ex. cbn [bind].
  assert (exists b1, (if v_match x then Ok (or_chunks (bytes_of tr) (N.ones 256) bits) else pairs_second g (bytes_of tr) (v_out x) bits) = Ok b1) as (b1 & ->).
  { destruct (v_match x); eauto. apply (pairs_second_total _ t). intros u Hu. unfold edge. rewrite (edge_outs _ _ _ Ex). auto. }
  cbn [bind]. apply IH. intros; apply H; right; auto.
Qed.

(** A walk [u] of [D] steps from the root to a match state. *)
Variables (D : N) (u : N -> nat).
Hypothesis HD : D <= N.of_nat (length g).
Hypothesis Hu0 : u 0 = 0%nat.
Hypothesis Hue : forall i, i < D -> edge g (u i) (u (i + 1)).
Hypothesis Hum : exists x, nth_error g (u D) = Some x /\ v_match x = true.

Let n := length g.

Record tinv (next : list (N * nat)) (b : list N) (lmin : N) : Prop := {
  ti_sorted : ssorted next;
  ti_in : forall y, In y next -> (snd y < n)%nat /\ (fst y = 0 -> snd y = 0%nat);
  ti_walk : lmin <= D \/ exists i, i <= D /\ In (i, u i) next;
  ti_lmin : lmin <> 0;
  ti_b : b <> [] \/ next = [(0, 0%nat)]
}.

Definition hmeas (next : list (N * nat)) : nat :=
  match next with [] => 0%nat | y :: _ => (N.to_nat (D + 2) * n - (N.to_nat (fst y) * n + snd y))%nat end.

Lemma pair_loop_total : forall fuel next b lmin, tinv next b lmin -> (hmeas next < fuel)%nat ->
  exists b' lmin', pair_loop fuel g next b lmin = Ok (b', lmin') /\ lmin' <> 0 /\ b' <> [].
Proof.
  induction fuel as [|fuel IH]; intros next b lmin I Hf; [lia|].
  destruct next as [|[depth v] rest]; simpl.
  - exists b, lmin. split; auto. split; [apply (ti_lmin _ _ _ I)|]. destruct (ti_b _ _ _ I); auto. discriminate.
  - pose proof (ti_in _ _ _ I (depth, v) (or_introl eq_refl)) as (Hv & Hv0). simpl in Hv, Hv0.
    destruct (ti_sorted _ _ _ I) as (Hs1 & Hs2).
    destruct (N.ltb_spec (lmin + 1) depth) as [Hlt|Hge].
    { exists b, lmin. split; auto. split; [apply (ti_lmin _ _ _ I)|].
      destruct (ti_b _ _ _ I) as [|Hn]; auto. injection Hn as -> _ _. lia. }
    assert (Hd: depth <= D + 1).
    { destruct (ti_walk _ _ _ I) as [Hl|(i & Hi & Hin)]; [lia|]. destruct Hin as [Hin|Hin]; [injection Hin as -> _; lia|].
      specialize (Hs1 _ Hin). unfold hlt in Hs1. simpl in Hs1. lia. }
    destruct (lt_nth g v Hv) as (x & Ex). unfold get at 1. rewrite Ex. cbn [bind].
    set (lm := if v_match x && (depth <? lmin) then depth else lmin).
    assert (Hlm: lm <= lmin /\ (v_match x = true -> lm <= depth) /\ lm <> 0).
    { unfold lm. destruct (v_match x) eqn:Em; simpl.
      - assert (Hdn: depth <> 0).
        { intros ->. rewrite (Hv0 eq_refl) in Ex. destruct (gd_root _ _ G) as (x' & E' & _ & Em' & _). congruence. }
        destruct (N.ltb_spec depth lmin); split; try lia; split; intros; try lia; try apply (ti_lmin _ _ _ I).
      - split; [lia|split; [discriminate|apply (ti_lmin _ _ _ I)]]. }
    destruct Hlm as (Hlm1 & Hlm2 & Hlm3). clearbody lm.
    assert (Hsmall: (depth + 1) mod two32 = depth + 1) by (apply N.mod_small; lia). rewrite Hsmall.
    set (next' := if depth <? lm + 1 then fold_left (fun s t => heap_add (depth + 1, t) s) (v_out x) rest else rest).
    assert (Hn: ssorted next' /\ (forall y, In y next' -> In y rest \/ (fst y = depth + 1 /\ edge g v (snd y))) /\
       (forall y, In y rest -> In y next') /\ (depth < lm + 1 -> forall c, edge g v c -> In (depth + 1, c) next')).
    { unfold next'. destruct (N.ltb_spec depth (lm + 1)) as [Hd2|Hd2].
      - destruct (heap_adds_s (depth + 1) (v_out x) rest Hs2) as (A1 & A2). split; auto. split; [|split].
        + intros y Hy. apply A2 in Hy. destruct Hy as [Hy|(Hy1 & Hy2)]; auto. right. split; auto. unfold edge. rewrite (edge_outs _ _ _ Ex). auto.
        + intros y Hy; apply A2; auto.
        + intros _ c Hc. apply A2. right. simpl. split; auto. unfold edge in Hc. rewrite (edge_outs _ _ _ Ex) in Hc. auto.
      - split; auto. split; auto. split; auto. lia. }
    destruct Hn as (Hn1 & Hn2 & Hn3 & Hn4). clearbody next'.
    set (b1 := b ++ repeat 0 (N.to_nat depth + 1 - length b)).
    assert (Hb1: (N.to_nat depth < length b1)%nat) by (unfold b1; rewrite app_length, repeat_length; lia).
    destruct (get_lt b1 (N.to_nat depth) Hb1) as (bits & ->). cbn [bind].
    destruct (pairs_first_total v (v_out x) bits) as (bits' & ->). { intros t Ht. unfold edge. rewrite (edge_outs _ _ _ Ex). auto. }
    cbn [bind]. apply IH.
    + constructor; auto.
      * intros y Hy. destruct (Hn2 y Hy) as [Hr|(Hy1 & Hy2)].
        -- apply (ti_in _ _ _ I). right; auto.
        -- split; [apply (gd_edge _ _ G _ _ Hy2)|]. lia.
      * destruct (ti_walk _ _ _ I) as [Hl|(i & Hi & [Hin|Hin])].
        -- left. lia.
        -- injection Hin as -> ->. destruct (N.eq_dec i D) as [->|Hne].
           ++ left. destruct Hum as (y & Ey & Em). apply Hlm2. congruence.
           ++ destruct (N.ltb_spec i (lm + 1)) as [Hd2|Hd2]; [|left; lia].
              right. exists (i + 1). split; [lia|]. apply Hn4; auto. apply Hue. lia.
        -- right. exists i. split; auto.
      * left. intros Hnil. apply (f_equal (@length N)) in Hnil. rewrite upd_length in Hnil. simpl in Hnil. lia.
    + (* the new head is greater *)
      unfold hmeas in *. cbn [fst snd] in Hf.
      assert (Hlast: (N.to_nat depth * n + v < N.to_nat (D + 2) * n)%nat) by nia.
      destruct next' as [|[d2 v2] r2]; [lia|]. cbn [fst snd].
      assert (Hh: hlt (depth, v) (d2, v2)).
      { destruct (Hn2 (d2, v2) (or_introl eq_refl)) as [Hr|(Hy1 & _)]; auto. left. simpl in *. lia. }
      assert (N.to_nat depth * n + v < N.to_nat d2 * n + v2)%nat.
      { destruct Hh as [Hh|(Hh & Hh2)]; simpl in *; [|subst; lia]. nia. }
      lia.
Qed.
End Pairs.

Lemma path_walk g v p : path g v p -> exists u : N -> nat, u 0 = 0%nat /\ u (N.of_nat (length p) - 1) = v /\
  forall i, i < N.of_nat (length p) - 1 -> edge g (u i) (u (i + 1)).
Proof.
  induction 1 as [|v p c H (u & U0 & U1 & U2) He].
  - exists (fun _ => 0%nat). simpl. split; auto. split; auto. lia.
  - assert (Hp: (0 < length p)%nat) by (destruct H; simpl; lia).
    exists (fun i => if i =? N.of_nat (length p) then c else u i). cbn [length].
    destruct (N.eqb_spec 0 (N.of_nat (length p))); [lia|]. split; auto.
    replace (N.of_nat (S (length p)) - 1) with (N.of_nat (length p)) by lia. rewrite N.eqb_refl. split; auto.
    intros i Hi. destruct (N.eqb_spec i (N.of_nat (length p))); [lia|].
    destruct (N.eqb_spec (i + 1) (N.of_nat (length p))) as [E|E].
    + replace i with (N.of_nat (length p) - 1) by lia. rewrite U1. auto.
    + apply U2. lia.
Qed.

Lemma bestPair_total g K fuel : good g K -> fits32 g -> compilable g ->
  ((length g + 2) * length g < fuel)%nat -> exists off filter, bestPair fuel g = Ok (off, filter).
Proof.
  intros G HF CP Hfuel. pose proof (fits32_length g HF) as Hfl.
  destruct (cp_match _ CP) as (m & xm & Em & Hm).
  assert (Hr: reach g m). { apply (gd_reach _ _ G). apply nth_error_Some. congruence. }
  destruct (reach_path g m Hr) as (p & Hp & Hnd).
  assert (Hpl: (length p <= length g)%nat) by (apply NoDup_lt_length; auto; eapply path_in; eauto).
  destruct (path_walk g m p Hp) as (u & U0 & U1 & U2).
  assert (Hlen: (0 < length g)%nat) by (assert (m < length g)%nat by (apply nth_error_Some; congruence); lia).
  set (D := N.of_nat (length p) - 1) in *.
  destruct (pair_loop_total g K G ltac:(unfold two32 in *; lia) D u ltac:(lia) U0 U2 ltac:(rewrite U1; eauto) fuel [(0, 0%nat)] [] 4294967294) as (b & lmin & E & Hl & Hb).
  - constructor.
    + simpl. split; auto. intros z [].
    + intros y [<-|[]]. simpl. split; auto.
    + right. exists 0. split; [lia|]. left. rewrite U0. auto.
    + discriminate.
    + right; auto.
  - unfold hmeas. cbn [fst snd]. assert (N.to_nat (D + 2) * length g <= (length g + 2) * length g)%nat; [|lia].
    apply Nat.mul_le_mono_r. lia.
  - unfold bestPair. rewrite E. cbn [bind].
    assert (Hb': (if lmin <? N.of_nat (length b) then firstn (N.to_nat lmin) b else b) <> []).
    { destruct (lmin <? N.of_nat (length b)); auto. destruct b; [easy|]. destruct (N.to_nat lmin) eqn:El; [lia|]. discriminate. }
    destruct (if lmin <? N.of_nat (length b) then firstn (N.to_nat lmin) b else b) as [|x r]; [easy|].
    destruct (min_index r 1 (0%nat, x)). eauto.
Qed.

(** Code generation succeeds. *)
Theorem createProgram_total fuel1 fuel2 g K : good g K -> fits32 g -> compilable g ->
  (length g <= fuel1)%nat -> ((length g + 2) * length g < fuel2)%nat -> exists P, createProgram fuel1 fuel2 g = Ok P.
Proof.
  intros G HF CP H1 H2. unfold createProgram.
  destruct (specialVisit_total g K fuel1 G HF H1) as (h & order & E). pose proof (specialVisit_layout _ _ _ _ _ G HF E) as L.
  rewrite E. cbn [bind]. destruct (bestPair_total g K fuel2 G HF CP H2) as (off & filter & ->). cbn [bind].
  pose proof (ly_bound _ _ _ L). rewrite N.mod_small by auto.
  destruct (encode_all_total g K h order G HF L CP (seq 0 (length g)) (repeat makeHalt (N.to_nat (h_guard h + 2)))) as (p & Ep).
  { intros v Hv. apply in_seq in Hv. lia. }
  { rewrite repeat_length. unfold guard. lia. }
  rewrite Ep. cbn [bind].
  destruct (encode_all_ok g K h order G L (seq 0 (length g)) _ _ (seq_NoDup _ _) (fun v Hv => proj2 (proj1 (in_seq (length g) 0 v) Hv)) Ep) as (Hl & _).
  rewrite repeat_length in Hl.
  rewrite set_at_lt by lia. cbn [bind]. rewrite set_at_lt by (rewrite upd_length; lia). cbn [bind]. eauto.
Qed.
