(** The second half of the code generator: what is in memory after writing all states. *)
From Verif Require Import Base InstrModel NfaModel CodegenModel CodegenSpec CodegenLayout.
From Verif Require Import VmModel VmGeneric.
Open Scope N_scope.

Definition seg (P : list N) (a : nat) (ws : list N) : Prop :=
  forall i w, nth_error ws i = Some w -> nth_error P (a + i) = Some w.

Lemma seg_app P a u v : seg P a (u ++ v) <-> seg P a u /\ seg P (a + length u) v.
Proof.
  unfold seg. split.
  - intros H. split; intros i w Hi.
    + apply H. rewrite nth_error_app1; auto. apply nth_error_Some. congruence.
    + rewrite <- Nat.add_assoc. apply H. rewrite nth_error_app2 by lia.
      replace (length u + i - length u)%nat with i by lia. auto.
  - intros (H1 & H2) i w Hi. destruct (lt_dec i (length u)) as [Hlt|Hge].
    + rewrite nth_error_app1 in Hi by auto. auto.
    + rewrite nth_error_app2 in Hi by lia. apply H2 in Hi. rewrite <- Hi. f_equal. lia.
Qed.

Lemma seg_cons P a w ws : seg P a (w :: ws) <-> nth_error P a = Some w /\ seg P (a + 1) ws.
Proof.
  change (w :: ws) with ([w] ++ ws). rewrite seg_app. simpl.
  assert (seg P a [w] <-> nth_error P a = Some w); [|tauto].
  unfold seg. split.
  - intros H. rewrite <- (H 0%nat w); auto.
  - intros H [|i] x Hi; simpl in Hi; [|destruct i; discriminate].
    injection Hi as <-. rewrite <- H. f_equal. lia.
Qed.

Lemma seg_nil P a : seg P a [].
Proof. intros [|i] w H; discriminate. Qed.

Lemma write_ok : forall ws a prog p, write ws a prog = Ok p ->
  length p = length prog /\ seg p a ws /\
  (forall j, (j < a)%nat \/ (a + length ws <= j)%nat -> nth_error p j = nth_error prog j).
Proof.
  induction ws as [|w ws IH]; intros a prog p H; simpl in H.
  - injection H as <-. split; auto. split; [apply seg_nil|auto].
  - inv_bind H. apply inv_set_at in E. destruct E as (Ha & ->). apply IH in H. destruct H as (H1 & H2 & H3).
    rewrite upd_length in H1. split; auto. split.
    + apply seg_cons. split; [|replace (a + 1)%nat with (S a) by lia; auto].
      rewrite H3 by lia. apply nth_upd_same; auto.
    + intros j Hj. simpl in Hj. rewrite H3 by lia. apply nth_upd_other. lia.
Qed.

Lemma seg_same p q a ws : (forall i, (i < length ws)%nat -> nth_error p (a + i) = nth_error q (a + i)) -> seg p a ws -> seg q a ws.
Proof. intros H S i w Hi. rewrite <- H; auto. apply nth_error_Some. congruence. Qed.

Lemma map_res_ok {A B} (f : A -> res B) : forall l m, map_res f l = Ok m ->
  length m = length l /\ Forall2 (fun a b => f a = Ok b) l m.
Proof.
  induction l as [|a l IH]; intros m H; simpl in H.
  - injection H as <-. auto.
  - inv_bind H. inv_bind H. injection H as <-. destruct (IH _ E0). simpl. split; auto.
Qed.

Lemma flat_map_pairs {A} (f : A -> list N) l : (forall a, length (f a) = 2%nat) -> length (flat_map f l) = (2 * length l)%nat.
Proof. intros H. induction l; simpl; auto. rewrite app_length, H, IHl. lia. Qed.

Lemma toInstruction_length t ws : toInstruction t = Ok ws -> N.of_nat (length ws) = numInstructions t.
Proof.
  destruct t as [b|b1 b2|f l|s]; simpl; intros H.
  - injection H as <-. auto.
  - injection H as <-. auto.
  - destruct ((f =? 0) && (l =? 255)); [injection H as <-; auto|]. inv_bind H. injection H as <-. auto.
  - injection H as <-. auto.
Qed.

Section Code.
Variables (g : nfa) (K : nat -> N) (h : helper) (order : list nat).
Hypothesis G : good g K.
Hypothesis L : layout g h order.

Definition start (v : nat) : nat := match nth_error (h_snips h) v with Some s => N.to_nat (sn_start s) | None => 0 end.
Definition evlen (v : nat) : nat := match nth_error (h_snips h) v with Some s => N.to_nat (sn_eval s) | None => 0 end.
Definition len (v : nat) : nat := N.to_nat (size_at (h_snips h) v).
Definition guard : nat := N.to_nat (h_guard h).

Lemma start_addr v : (v < length g)%nat -> N.of_nat (start v) = addr (size_at (h_snips h)) order v.
Proof.
  intros Hv. destruct (ly_snip _ _ _ L v Hv) as (x & s & _ & Es & Ha & _). unfold start. rewrite Es. lia.
Qed.

Lemma seg_end v : (v < length g)%nat -> (start v + len v <= guard)%nat.
Proof.
  intros Hv. pose proof (start_addr v Hv). apply (ly_all _ _ _ L) in Hv.
  pose proof (addr_total (size_at (h_snips h)) order v Hv). rewrite <- (ly_guard _ _ _ L) in H0.
  unfold len, guard. lia.
Qed.

Lemma seg_disjoint v u : (v < length g)%nat -> (u < length g)%nat -> v <> u ->
  (start v + len v <= start u)%nat \/ (start u + len u <= start v)%nat.
Proof.
  intros Hv Hu Hne. pose proof (start_addr v Hv). pose proof (start_addr u Hu).
  apply (ly_all _ _ _ L) in Hv, Hu.
  pose proof (addr_disjoint (size_at (h_snips h)) order v u (ly_nodup _ _ _ L) Hv Hu Hne). unfold len. lia.
Qed.

Lemma start_zero : start 0 = 0%nat.
Proof.
  assert (Eo: exists r, order = 0%nat :: r).
  { pose proof (ly_hd _ _ _ L) as Hh. clear L. destruct order as [|o r]; [discriminate|]. injection Hh as ->. eauto. }
  destruct Eo as (r & Eo).
  assert (Hv: (0 < length g)%nat). { apply (ly_all _ _ _ L). rewrite Eo. left. auto. }
  pose proof (start_addr 0 Hv). rewrite Eo in H. simpl in H. lia.
Qed.

(** The next state in the order of ranks follows in memory. *)
Lemma follows_start v c rv rc : (v < length g)%nat -> (c < length g)%nat ->
  nth_error (h_ranks h) v = Some rv -> nth_error (h_ranks h) c = Some rc -> (rv + 1) mod two32 = rc ->
  start c = (start v + len v)%nat.
Proof.
  intros Hv Hc Rv Rc Hr. pose proof (start_addr v Hv) as Av. pose proof (start_addr c Hc) as Ac.
  apply (ly_all _ _ _ L) in Hv, Hc.
  destruct (In_nth_error _ _ Hv) as (kv & Kv). destruct (In_nth_error _ _ Hc) as (kc & Kc).
  rewrite (ly_rank _ _ _ L _ _ Kv) in Rv. injection Rv as <-.
  rewrite (ly_rank _ _ _ L _ _ Kc) in Rc. injection Rc as Rc.
  assert (kv < length g)%nat.
  { assert (kv < length order)%nat by (apply nth_error_Some; congruence).
    assert (length order <= length g)%nat; [|lia].
    apply NoDup_lt_length; [apply (ly_nodup _ _ _ L)|apply (ly_all _ _ _ L)]. }
  assert (Hkc: kc = S kv).
  { pose proof (ly_len _ _ _ L). rewrite N.mod_small in Hr; lia. }
  subst kc. pose proof (addr_next (size_at (h_snips h)) order kv v c (ly_nodup _ _ _ L) Kv Kc). unfold len. lia.
Qed.

Lemma root_snip : exists x s, nth_error g 0 = Some x /\ nth_error (h_snips h) 0 = Some s /\
  v_trans x = None /\ v_match x = false /\ v_label x = NOLABEL /\ v_out x <> [] /\ sn_eval s = 0 /\ sn_check s = NONE32.
Proof.
  destruct (gd_root _ _ G) as (x & E0 & E1 & E2 & E3 & E4 & E5).
  assert (H0: (0 < length g)%nat) by (apply nth_error_Some; congruence).
  destruct (ly_snip _ _ _ L _ H0) as (x' & s & E & Es & _ & So & _ & Hc). rewrite E0 in E. injection E as <-.
  exists x, s. repeat split; auto.
  - apply (so_eval _ _ _ _ _ So).
  - apply Hc. rewrite E4. simpl. lia.
Qed.

Lemma encode_length v ws : (v < length g)%nat -> encodeState g h v = Ok (ws, true) -> length ws = len v.
Proof.
  intros Hv H. destruct (ly_snip _ _ _ L v Hv) as (x & s & Ex & Es & _ & So & _).
  unfold encodeState in H. unfold get in H at 1 2. rewrite Ex, Es in H. cbn [bind] in H.
  inv_bind H. unfold len, size_at. rewrite Es. unfold sn_size.
  destruct So as [S1 (outOps & S2 & S3)].
  set (labn := if v_label x =? NONE32 then 0 else 1) in *.
  set (chkn := if sn_check s =? NONE32 then 0 else 1) in *.
  assert (Hpre: N.of_nat (length x0) = sn_eval s + labn + (if v_match x then (if (length (v_out x) =? 0)%nat then 2 else 3) else 0) + chkn).
  { destruct (Nat.eqb_spec v 0) as [->|Hv0].
    - destruct root_snip as (x' & s' & Ex' & Es' & R1 & R2 & R3 & R4 & R5 & R6).
      rewrite Ex in Ex'. injection Ex' as <-. rewrite Es in Es'. injection Es' as <-.
      rewrite R1 in E. injection E as <-. unfold labn, chkn. rewrite R2, R3, R5, R6. reflexivity.
    - destruct S1 as (t & Et & S1). rewrite Et in E. inv_bind E. inv_bind E. inv_bind E.
      injection E as <-. rewrite !app_length. apply toInstruction_length in E0.
      assert (El: N.of_nat (length x2) = labn).
      { unfold labn. destruct (v_label x =? NONE32); [injection E1 as <-; auto|]. inv_bind E1. injection E1 as <-. auto. }
      assert (Ec: N.of_nat (length x3) = chkn).
      { unfold chkn. destruct (sn_check s =? NONE32); [injection E2 as <-; auto|]. inv_bind E2. injection E2 as <-. auto. }
      rewrite S1, <- E0, <- El, <- Ec. unfold makeFork. destruct (v_match x); [destruct (v_out x)|]; simpl length; simpl Nat.eqb; cbn iota; lia. }
  destruct (sn_jt s).
  - inv_bind H. injection H as <- Hf. apply N.eqb_eq in Hf. rewrite app_length. unfold sn_end in Hf.
    pose proof (seg_end v Hv) as He. unfold start, len, size_at in He. rewrite Es in He. unfold sn_size in He.
    pose proof (ly_bound _ _ _ L). unfold guard in He.
    rewrite N.mod_small in Hf by lia. lia.
  - destruct S3 as (_ & S3). destruct (v_out x) as [|c r] eqn:Eo.
    + injection H as <-. subst outOps. lia.
    + inv_bind H. inv_bind H. inv_bind H. injection H as <-.
      apply map_res_ok in E0. destruct E0 as (E0 & _).
      destruct S3 as (rv & rc & Rv & Rc & S3).
      unfold targetCodeFollowsSource, get in E2. rewrite Rv, Rc in E2. cbn [bind] in E2. injection E2 as <-.
      rewrite !app_length, flat_map_pairs by reflexivity. rewrite rev_length, E0.
      replace (length (c :: r) - 1)%nat with (length r) in S3 by (simpl; lia).
      destruct ((rv + 1) mod two32 =? rc); simpl length; lia.
Qed.

Lemma encode_all_ok : forall vs prog p, NoDup vs -> (forall v, In v vs -> (v < length g)%nat) ->
  encode_all g h vs prog = Ok p ->
  length p = length prog /\
  (forall v, In v vs -> exists ws, encodeState g h v = Ok (ws, true) /\ length ws = len v /\ seg p (start v) ws) /\
  (forall u ws, (u < length g)%nat -> ~ In u vs -> length ws = len u -> seg prog (start u) ws -> seg p (start u) ws).
Proof.
  induction vs as [|v vs IH]; intros prog p Hnd Hlt H; simpl in H.
  - injection H as <-. split; auto. split; [easy|auto].
  - inversion Hnd as [|? ? Hn Hnd']; subst.
    assert (Hv: (v < length g)%nat) by (apply Hlt; left; auto).
    inv_bind H. inv_bind H. destruct x0 as [ws fits]. inv_bind H. destruct fits; [|discriminate].
    apply get_ok in E. pose proof (encode_length v ws Hv E0) as Hl.
    apply write_ok in E1. destruct E1 as (W1 & W2 & W3).
    assert (Est: start v = N.to_nat (sn_start x)) by (unfold start; rewrite E; auto). rewrite <- Est in *.
    destruct (IH _ _ Hnd' (fun u Hu => Hlt u (or_intror Hu)) H) as (I1 & I2 & I3).
    split; [congruence|]. split.
    + intros u [<-|Hu]; auto. exists ws. split; auto.
    + intros u us Hu Hnu Hlu Su. apply I3; auto. { intros Hi; apply Hnu; right; auto. }
      assert (Hne: v <> u) by (intros ->; apply Hnu; left; auto).
      pose proof (seg_disjoint v u Hv Hu Hne).
      apply (seg_same prog); auto. intros i Hi. symmetry. apply W3. lia.
Qed.

End Code.

(** The program written for an automaton. *)
Record written (g : nfa) (h : helper) (order : list nat) (P : program) : Prop := {
  wr_len : length (p_words P) = (guard h + 2)%nat;
  wr_state : forall v, (v < length g)%nat -> exists ws, encodeState g h v = Ok (ws, true) /\
     length ws = len h v /\ seg (p_words P) (start h v) ws;
  wr_halt : nth_error (p_words P) (guard h) = Some makeHalt;
  wr_finish : nth_error (p_words P) (guard h + 1) = Some makeFinish;
  wr_maxLabel : p_maxLabel P = h_maxLabel h;
  wr_maxCheck : p_maxCheck P = h_maxCheck h
}.

Lemma createProgram_written fuel1 fuel2 g K P : good g K -> fits32 g -> createProgram fuel1 fuel2 g = Ok P ->
  exists h order off filter, specialVisit fuel1 g = Ok (h, order) /\ layout g h order /\ written g h order P /\
    bestPair fuel2 g = Ok (off, filter) /\ p_filterOff P = off /\ p_filter P = filter.
Proof.
  intros G HF H. unfold createProgram in H. inv_bind H. destruct x as [h order].
  inv_bind H. destruct x as [off filter]. inv_bind H. inv_bind H. inv_bind H. injection H as <-.
  pose proof (specialVisit_layout _ _ _ _ _ G HF E) as L.
  exists h, order, off, filter. split; auto. split; auto. split; [|auto].
  destruct (encode_all_ok g K h order G L (seq 0 (length g)) _ _ (seq_NoDup _ _) (fun v Hv => proj2 (proj1 (in_seq (length g) 0 v) Hv)) E1) as (H1 & H2 & _).
  apply inv_set_at in E2, E3. destruct E2 as (H3 & ->), E3 as (H4 & ->). rewrite upd_length in H4.
  pose proof (ly_bound _ _ _ L). rewrite repeat_length, N.mod_small in H1 by auto.
  fold (guard h) in *.
  assert (Hg: N.to_nat (h_guard h + 2) = (guard h + 2)%nat) by (unfold guard; lia). rewrite Hg in H1.
  constructor; cbn [p_words p_maxLabel p_maxCheck]; auto.
  - rewrite !upd_length. auto.
  - intros v Hv. destruct (H2 v) as (ws & W1 & W2 & W3). { apply in_seq. lia. }
    exists ws. split; auto. split; auto. pose proof (seg_end g h order L v Hv).
    apply (seg_same x); auto. intros i Hi. rewrite !nth_upd_other by lia. auto.
  - rewrite nth_upd_other by lia. apply nth_upd_same. lia.
  - apply nth_upd_same. rewrite upd_length. lia.
Qed.
