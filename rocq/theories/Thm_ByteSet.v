(** C22, C37: sets of bytes and the transitions chosen for them. *)
From Verif Require Import Base InstrModel NfaModel VmModel VmIdeal VmSpec ByteSetModel ByteSetProofs
  CodegenSpec CodegenLayout CodegenCode CodegenAnn.
From Coq Require Import Sorting.Sorted.
Open Scope N_scope.

(** The members of a set, as the program sees them. *)
Definition has (s : bset) (i : N) : Prop := bs_test s i = Ok true.

(** Everything that can be done to a byte set. *)
Inductive bexpr :=
| BEmpty
| BSet1 (e : bexpr) (i : N) (v : bool)
| BSetRange (e : bexpr) (beg end_ : N) (v : bool)
| BNot (e : bexpr)
| BAnd (e1 e2 : bexpr)
| BOr (e1 e2 : bexpr)
| BSub (e1 e2 : bexpr).

Fixpoint brun (e : bexpr) : res bset :=
  match e with
  | BEmpty => Ok bs_empty
  | BSet1 e i v => s <- brun e ;; bs_set1 s i v
  | BSetRange e b x v => s <- brun e ;; bs_set s b x v
  | BNot e => s <- brun e ;; Ok (bs_not s)
  | BAnd a b => s <- brun a ;; t <- brun b ;; Ok (bs_and s t)
  | BOr a b => s <- brun a ;; t <- brun b ;; Ok (bs_or s t)
  | BSub a b => s <- brun a ;; t <- brun b ;; Ok (bs_sub s t)
  end.

(** What set theory says. *)
Fixpoint bmembers (e : bexpr) (x : N) : Prop :=
  match e with
  | BEmpty => False
  | BSet1 e i v => if v then bmembers e x \/ x = i else bmembers e x /\ x <> i
  | BSetRange e b z v => if v then bmembers e x \/ (b <= x < z) else bmembers e x /\ ~ (b <= x < z)
  | BNot e => ~ bmembers e x
  | BAnd a b => bmembers a x /\ bmembers b x
  | BOr a b => bmembers a x \/ bmembers b x
  | BSub a b => bmembers a x /\ ~ bmembers b x
  end.

(** Positions are bytes, ranges are in order and end at most at 256. *)
Fixpoint bargs_ok (e : bexpr) : Prop :=
  match e with
  | BEmpty => True
  | BSet1 e i _ => bargs_ok e /\ i < 256
  | BSetRange e b z _ => bargs_ok e /\ b <= z /\ z <= 256
  | BNot e => bargs_ok e
  | BAnd a b | BOr a b | BSub a b => bargs_ok a /\ bargs_ok b
  end.

Lemma brun_spec e : bargs_ok e ->
  exists s, brun e = Ok s /\ bs_wf s /\ forall x, x < 256 -> (tb s x = true <-> bmembers e x).
Proof.
  induction e as [|e IH i v|e IH b z v|e IH|a IHa b IHb|a IHa b IHb|a IHa b IHb]; cbn [brun bargs_ok bmembers].
  - intros _. exists bs_empty. split; auto. split.
    + split; [reflexivity|]. apply Forall_forall. intros y Hy. apply repeat_spec in Hy. subst. reflexivity.
    + intros x Hx. unfold tb, bs_empty. rewrite nth_repeat by lia. rewrite N.bits_0. split; [discriminate|tauto].
  - intros [H1 H2]. destruct (IH H1) as (s & E & W & T). rewrite E. cbn [bind].
    destruct (set1_spec s i v W H2) as (s' & E' & W' & T'). exists s'. split; auto. split; auto.
    intros x Hx. rewrite T' by auto. specialize (T x Hx). destruct (N.eqb_spec x i), v, (tb s x); intuition (try congruence; try lia).
  - intros (H1 & H2 & H3). destruct (IH H1) as (s & E & W & T). rewrite E. cbn [bind].
    destruct (set_range_spec s b z v W H2 H3) as (s' & E' & W' & T'). exists s'. split; auto. split; auto.
    intros x Hx. rewrite T' by auto. specialize (T x Hx).
    destruct (N.leb_spec b x), (N.ltb_spec x z), v, (tb s x); cbn [andb]; intuition (try congruence; try lia).
  - intros H1. destruct (IH H1) as (s & E & W & T). rewrite E. cbn [bind].
    destruct (not_spec s W) as [W' T']. eexists; split; [reflexivity|]. split; auto.
    intros x Hx. rewrite T' by auto. specialize (T x Hx). destruct (tb s x); cbn; intuition congruence.
  - intros [H1 H2]. destruct (IHa H1) as (s & E & W & T). destruct (IHb H2) as (t & E2 & W2 & T2). rewrite E, E2. cbn [bind].
    destruct (map2_spec N.land andb s t N.land_spec eq_refl W W2) as [W' T']. eexists; split; [reflexivity|]. split; [exact W'|].
    intros x Hx. unfold bs_and. rewrite T' by auto. specialize (T x Hx). specialize (T2 x Hx).
    destruct (tb s x), (tb t x); cbn; intuition congruence.
  - intros [H1 H2]. destruct (IHa H1) as (s & E & W & T). destruct (IHb H2) as (t & E2 & W2 & T2). rewrite E, E2. cbn [bind].
    destruct (map2_spec N.lor orb s t N.lor_spec eq_refl W W2) as [W' T']. eexists; split; [reflexivity|]. split; [exact W'|].
    intros x Hx. unfold bs_or. rewrite T' by auto. specialize (T x Hx). specialize (T2 x Hx).
    destruct (tb s x), (tb t x); cbn; intuition congruence.
  - intros [H1 H2]. destruct (IHa H1) as (s & E & W & T). destruct (IHb H2) as (t & E2 & W2 & T2). rewrite E, E2. cbn [bind].
    destruct (not_spec t W2) as [W3 T3].
    destruct (map2_spec N.land andb s _ N.land_spec eq_refl W W3) as [W' T']. eexists; split; [reflexivity|]. split; [exact W'|].
    intros x Hx. unfold bs_sub, bs_and. rewrite T', T3 by auto. specialize (T x Hx). specialize (T2 x Hx).
    destruct (tb s x), (tb t x); cbn; intuition congruence.
Qed.

(** Whatever was done to a set, its members are the ones set theory says: setting or clearing
    a range changes exactly that range.  Nothing is read or written outside the set. *)
Theorem byteset_membership e : bargs_ok e ->
  exists s, brun e = Ok s /\ forall x, x < 256 -> (has s x <-> bmembers e x).
Proof.
  intros H. destruct (brun_spec e H) as (s & E & W & T). exists s. split; auto. intros x Hx.
  unfold has. rewrite test_tb by auto. rewrite <- T by auto. split; congruence.
Qed.
Print Assumptions byteset_membership.

(** Visiting the members calls back with exactly the members, in increasing order. *)
Theorem byteset_iteration e s : bargs_ok e -> brun e = Ok s ->
  exists L, for_each_set_bit s = Ok L /\ StronglySorted N.lt L /\
    forall x, In x L <-> x < 256 /\ bmembers e x.
Proof.
  intros H E. destruct (brun_spec e H) as (s' & E' & W & T). rewrite E in E'. injection E' as <-.
  destruct (for_each_spec s W) as (L & EL & SL & IL). exists L. split; auto. split; auto.
  intros x. rewrite IL. split; intros [H1 H2]; split; auto; apply T; auto.
Qed.
Print Assumptions byteset_iteration.

(** Comparison (the sign of memcmp) is a total order; two sets compare equal iff they have
    the same members. *)
Theorem byteset_order e1 e2 e3 s1 s2 s3 :
  bargs_ok e1 -> bargs_ok e2 -> bargs_ok e3 -> brun e1 = Ok s1 -> brun e2 = Ok s2 -> brun e3 = Ok s3 ->
  (bs_compare s1 s2 = Eq <-> forall x, x < 256 -> (bmembers e1 x <-> bmembers e2 x)) /\
  (bs_compare s1 s2 = Lt <-> bs_compare s2 s1 = Gt) /\
  (bs_compare s1 s2 = Lt -> bs_compare s2 s3 = Lt -> bs_compare s1 s3 = Lt).
Proof.
  intros A1 A2 A3 E1 E2 E3.
  destruct (brun_spec e1 A1) as (t1 & F1 & W1 & T1). rewrite E1 in F1. injection F1 as <-.
  destruct (brun_spec e2 A2) as (t2 & F2 & W2 & T2). rewrite E2 in F2. injection F2 as <-.
  destruct (brun_spec e3 A3) as (t3 & F3 & W3 & T3). rewrite E3 in F3. injection F3 as <-.
  destruct W1 as [L1 B1], W2 as [L2 B2], W3 as [L3 B3].
  split; [split|split].
  - intros H. apply compare_eq in H; [|congruence]. subst s2. intros x Hx. rewrite <- T1, <- T2 by auto. tauto.
  - intros H. replace s2 with s1; [apply compare_refl|]. apply tb_ext; [split; auto|split; auto|].
    intros x Hx. apply eq_true_iff_eq. rewrite T1, T2 by auto. auto.
  - rewrite (compare_sym s1 s2) by congruence. destruct (bs_compare s1 s2); simpl; split; congruence.
  - apply compare_trans; congruence.
Qed.
Print Assumptions byteset_order.

(** A non-trivial case: {3..200} without {10..20} and without 64, clearing across bytes. *)
Example byteset_example :
  bargs_ok (BSet1 (BSetRange (BSetRange BEmpty 3 201 true) 10 21 false) 64 false) /\
  (exists s, brun (BSet1 (BSetRange (BSetRange BEmpty 3 201 true) 10 21 false) 64 false) = Ok s /\
     has s 9 /\ bs_test s 10 = Ok false /\ bs_test s 64 = Ok false /\ has s 200).
Proof. split; [simpl; lia|]. eexists; split; [vm_compute; reflexivity|]. repeat split. Qed.

(** The number standing for a byte set in NfaModel.v has the same members. *)
Lemma bs_num_spec s x : bs_wf s -> N.testbit (bs_num s) x = tb s x.
Proof. intros [_ F]. apply le_num_testbit. auto. Qed.

(** * C37 *)

(** The transition chosen for a set of bytes accepts exactly the bytes of the set. *)
Theorem smallest_transition_equivalent e s b : bargs_ok e -> brun e = Ok s -> b < 256 ->
  (allowed (getSmallest (bs_num s)) b = true <-> bmembers e b).
Proof.
  intros H E Hb. destruct (brun_spec e H) as (s' & E' & W & T). rewrite E in E'. injection E' as <-.
  rewrite getSmallest_allowed, bs_num_spec by auto. auto.
Qed.
Print Assumptions smallest_transition_equivalent.

Lemma getSmallest_ok s : match getSmallest s with TSet _ => True | t => trans_ok t end.
Proof.
  unfold getSmallest, all_bytes.
  pose proof (smallest_loop_spec s 256 0 TyNone 0 0 eq_refl) as H. change (N.to_nat 0) with O in H.
  destruct (smallest_loop s (map N.of_nat (seq 0 256)) TyNone 0 0) as [[[ty l] h]|]; [|exact I].
  specialize (H ltac:(intros x Hx; lia)). destruct ty; cbn [trans_ok]; try exact I; lia.
Qed.

Lemma set_instruction P th s b : (forall k w, nth_error (makeBitVector :: set_words s) k = Some w -> nth_error (p_words P) (t_pc th + k) = Some w) ->
  b < 256 -> exec_byte P th b = Ok (if N.testbit s b then Some (set_pc th (t_pc th + 9)) else None).
Proof.
  intros Hs Hb. unfold exec_byte, fetch, get. pose proof (Hs O _ eq_refl) as H0. rewrite Nat.add_0_r in H0. rewrite H0.
  cbn [bind]. change (w_op makeBitVector) with OpBitVector. cbn iota.
  pose proof (Hs (S (N.to_nat (b / 32))) _ (set_words_nth s (N.to_nat (b / 32)) ltac:(lia))) as H1.
  replace (t_pc th + 1 + N.to_nat (b / 32))%nat with (t_pc th + S (N.to_nat (b / 32)))%nat by lia. rewrite H1. cbn [bind].
  rewrite N.land_spec, N.shiftr_spec by lia. rewrite N.ones_spec_low by lia. rewrite andb_true_r.
  replace (b mod 32 + 32 * N.of_nat (N.to_nat (b / 32))) with b by lia.
  destruct (N.testbit s b); auto.
Qed.

(** So does its instruction: it can be built, and executing it, wherever it stands in a
    program, lets a thread pass to the word behind it on exactly the bytes of the set. *)
Theorem smallest_instruction_equivalent e s : bargs_ok e -> brun e = Ok s ->
  exists ws, toInstruction (getSmallest (bs_num s)) = Ok ws /\
    forall P th b, b < 256 -> (forall k w, nth_error ws k = Some w -> nth_error (p_words P) (t_pc th + k) = Some w) ->
      (bmembers e b -> exec_byte P th b = Ok (Some (set_pc th (t_pc th + length ws)))) /\
      (~ bmembers e b -> exec_byte P th b = Ok None).
Proof.
  intros H E. pose proof (getSmallest_ok (bs_num s)) as Hok.
  pose proof (fun b => smallest_transition_equivalent e s b H E) as Q.
  assert (Ho : exists ws, toInstruction (getSmallest (bs_num s)) = Ok ws /\
    forall P th b, b < 256 -> (forall k w, nth_error ws k = Some w -> nth_error (p_words P) (t_pc th + k) = Some w) ->
      exec_byte P th b = Ok (if allowed (getSmallest (bs_num s)) b then Some (set_pc th (t_pc th + length ws)) else None)).
  { destruct (getSmallest (bs_num s)) as [x|x y|f l|t]; cbn iota in Hok.
    4:{ eexists; split; [reflexivity|]. intros P th b Hb Hseg. apply set_instruction; auto. }
    all: match goal with |- exists ws, toInstruction ?t = _ /\ _ =>
           assert (Hx : exists ws, toInstruction t = Ok ws); [|destruct Hx as (ws & Hx); exists ws; split; [exact Hx|];
             intros P th b Hb Hseg; destruct (toInstruction_ok _ _ Hx Hok) as (w & r & _ & _ & _ & X); apply X; auto] end.
    1,2: cbn [toInstruction]; eauto.
    cbn [toInstruction trans_ok] in *. destruct ((f =? 0) && (l =? 255)); eauto.
    unfold makeRange. destruct (N.ltb_spec l f); [lia|]. cbn [bind]. eauto. }
  destruct Ho as (ws & Ew & X). exists ws. split; auto. intros P th b Hb Hseg.
  rewrite (X P th b Hb Hseg). specialize (Q b Hb).
  destruct (allowed (getSmallest (bs_num s)) b); intuition congruence.
Qed.
Print Assumptions smallest_instruction_equivalent.

(** Non-trivial cases: each shape occurs. *)
Example smallest_shapes :
  getSmallest (N.setbit 0 65) = TByte 65 /\
  getSmallest (N.setbit (N.setbit 0 65) 97) = TEither 65 97 /\
  getSmallest (bits_between 48 58) = TRange 48 57 /\
  getSmallest (bits_between 0 256) = TRange 0 255 /\
  (exists s, getSmallest (N.setbit (bits_between 48 58) 95) = TSet s /\ allowed (TSet s) 95 = true).
Proof. repeat split; try (vm_compute; reflexivity). eexists; split; vm_compute; reflexivity. Qed.

(** A transition object whose bytes are bytes and whose set is a byte set. *)
Definition xt_wf (t : xtrans) : Prop :=
  match t with
  | XByte b => b < 256
  | XEither a b | XRange a b => a < 256 /\ b < 256
  | XSet s => bs_wf s
  end.

Lemma xlt_neither a b : xt_wf a -> xt_wf b -> xlt a b = false -> xlt b a = false -> a = b.
Proof.
  destruct a as [x|x1 x2|x1 x2|s], b as [y|y1 y2|y1 y2|t]; cbn [xlt xt_wf]; intros Wa Wb H1 H2; try discriminate.
  - f_equal. lia.
  - destruct (N.ltb_spec x1 y1), (N.ltb_spec y1 x1); try discriminate. f_equal; lia.
  - destruct (N.ltb_spec x1 y1), (N.ltb_spec y1 x1); try discriminate. f_equal; lia.
  - f_equal. apply compare_eq; [destruct Wa, Wb; congruence|].
    rewrite (compare_sym s t) in H2 by (destruct Wa, Wb; congruence). destruct (bs_compare s t); simpl in *; congruence.
Qed.

Lemma xlt_irrefl a : xlt a a = false.
Proof.
  destruct a; cbn [xlt]; rewrite ?N.ltb_irrefl; auto. rewrite compare_refl; auto.
Qed.

(** The order by which TransitionFactory keeps its exemplars is a strict weak order whose
    equivalence is equality, as std::set requires. *)
Theorem transition_order a b c : xt_wf a -> xt_wf b -> xt_wf c ->
  xlt a a = false /\
  (xlt a b = true -> xlt b a = false) /\
  (xlt a b = true -> xlt b c = true -> xlt a c = true) /\
  (xlt a b = false -> xlt b a = false -> a = b).
Proof.
  intros Wa Wb Wc. split; [apply xlt_irrefl|]. split; [|split; [|apply xlt_neither; auto]].
  - destruct a as [x|x1 x2|x1 x2|s], b as [y|y1 y2|y1 y2|t]; cbn [xlt xt_wf] in *; intros H; try discriminate; auto.
    + lia.
    + destruct (N.ltb_spec x1 y1), (N.ltb_spec y1 x1); try discriminate; auto; lia.
    + destruct (N.ltb_spec x1 y1), (N.ltb_spec y1 x1); try discriminate; auto; lia.
    + rewrite (compare_sym s t) by (destruct Wa, Wb; congruence). destruct (bs_compare s t); simpl; congruence.
  - destruct a as [x|x1 x2|x1 x2|s], b as [y|y1 y2|y1 y2|t], c as [z|z1 z2|z1 z2|u]; cbn [xlt xt_wf] in *; intros H1 H2;
      try discriminate; auto.
    + lia.
    + destruct (N.ltb_spec x1 y1), (N.ltb_spec y1 x1), (N.ltb_spec y1 z1), (N.ltb_spec z1 y1), (N.ltb_spec x1 z1), (N.ltb_spec z1 x1);
        try discriminate; auto; lia.
    + destruct (N.ltb_spec x1 y1), (N.ltb_spec y1 x1), (N.ltb_spec y1 z1), (N.ltb_spec z1 y1), (N.ltb_spec x1 z1), (N.ltb_spec z1 x1);
        try discriminate; auto; lia.
    + destruct (bs_compare s t) eqn:E1; try discriminate. destruct (bs_compare t u) eqn:E2; try discriminate.
      rewrite (compare_trans s t u); auto; destruct Wa, Wb, Wc; congruence.
Qed.
Print Assumptions transition_order.

Lemma find_exemplar_spec l t i k : Forall xt_wf l -> xt_wf t -> find_exemplar l t i = Some k ->
  exists m, k = (i + m)%nat /\ nth_error l m = Some t.
Proof.
  intros Hl Ht. revert i. induction Hl as [|x l Hx Hl IH]; intros i; simpl; [discriminate|].
  destruct (xlt x t) eqn:E1; cbn [negb andb].
  - intros H. destruct (IH _ H) as (m & -> & Hm). exists (S m). split; [lia|auto].
  - destruct (xlt t x) eqn:E2; cbn [negb].
    + intros H. destruct (IH _ H) as (m & -> & Hm). exists (S m). split; [lia|auto].
    + intros [= <-]. exists O. split; [lia|]. simpl. f_equal. apply xlt_neither; auto.
Qed.

Lemma find_exemplar_none l t i : find_exemplar l t i = None -> ~ In t l.
Proof.
  revert i. induction l as [|x l IH]; intros i; simpl; [tauto|].
  destruct (xlt x t) eqn:E1; cbn [negb andb].
  - intros H [->|H2]; [rewrite xlt_irrefl in E1; discriminate|]. eapply IH; eauto.
  - destruct (xlt t x) eqn:E2; cbn [negb]; [|discriminate].
    intros H [->|H2]; [rewrite xlt_irrefl in E2; discriminate|]. eapply IH; eauto.
Qed.

Lemma factory_get_spec l t l' k : Forall xt_wf l -> xt_wf t -> NoDup l -> factory_get l t = (l', k) ->
  Forall xt_wf l' /\ NoDup l' /\ nth_error l' k = Some t /\ (forall j x, nth_error l j = Some x -> nth_error l' j = Some x).
Proof.
  intros Hl Ht Hn H. unfold factory_get in H. destruct (find_exemplar l t 0) as [i|] eqn:E; injection H as <- <-.
  - destruct (find_exemplar_spec _ _ _ _ Hl Ht E) as (m & -> & Hm). auto.
  - apply find_exemplar_none in E. repeat split.
    + apply Forall_app; auto.
    + clear - Hn E. induction Hn as [|x l Hx Hn IH]; simpl; [constructor; [tauto|constructor]|].
      constructor; [|apply IH; simpl in E; tauto]. rewrite in_app_iff. simpl in *. intuition congruence.
    + rewrite nth_error_app2, Nat.sub_diag by lia. reflexivity.
    + intros j x Hj. rewrite nth_error_app1; auto. apply nth_error_Some. congruence.
Qed.

(** Requests made to a factory, in order, and the objects returned (as positions). *)
Fixpoint factory_run (l : list xtrans) (ts : list xtrans) : list xtrans * list nat :=
  match ts with
  | [] => (l, [])
  | t :: r => let '(l1, k) := factory_get l t in let '(l2, ks) := factory_run l1 r in (l2, k :: ks)
  end.

(** Each request is answered with an object equal to the transition asked for, and two
    requests are answered with the same object iff they asked for equal transitions. *)
Theorem factory_shares_equals ts l ks : Forall xt_wf ts -> factory_run [] ts = (l, ks) ->
  (forall i t, nth_error ts i = Some t -> exists k, nth_error ks i = Some k /\ nth_error l k = Some t) /\
  (forall i j a b ka kb, nth_error ts i = Some a -> nth_error ts j = Some b ->
     nth_error ks i = Some ka -> nth_error ks j = Some kb -> (ka = kb <-> a = b)).
Proof.
  assert (G : forall ts l0 l ks, Forall xt_wf ts -> Forall xt_wf l0 -> NoDup l0 -> factory_run l0 ts = (l, ks) ->
     NoDup l /\ (forall j x, nth_error l0 j = Some x -> nth_error l j = Some x) /\
     (forall i t, nth_error ts i = Some t -> exists k, nth_error ks i = Some k /\ nth_error l k = Some t)).
  { clear. induction ts as [|t ts IH]; intros l0 l ks Ht Hl Hn H; cbn [factory_run] in H.
    - injection H as <- <-. repeat split; auto. intros [|i] t; discriminate.
    - inversion_clear Ht as [|? ? H1 H2]. destruct (factory_get l0 t) as [l1 k] eqn:E. destruct (factory_run l1 ts) as [l2 ks'] eqn:E2.
      injection H as <- <-. destruct (factory_get_spec _ _ _ _ Hl H1 Hn E) as (W1 & N1 & K1 & M1).
      destruct (IH _ _ _ H2 W1 N1 E2) as (N2 & M2 & R2). split; auto. split; [auto|].
      intros [|i] u Hu; simpl in *; [injection Hu as <-; exists k; auto|auto]. }
  intros Hw H. destruct (G ts [] l ks Hw (Forall_nil _) (NoDup_nil _) H) as (Nd & _ & R). split; auto.
  intros i j a b ka kb Ha Hb Hka Hkb.
  destruct (R _ _ Ha) as (k1 & E1 & F1). destruct (R _ _ Hb) as (k2 & E2 & F2).
  rewrite Hka in E1. rewrite Hkb in E2. injection E1 as <-. injection E2 as <-. split.
  - intros ->. congruence.
  - intros ->. apply (proj1 (NoDup_nth_error l) Nd); [apply nth_error_Some; congruence|congruence].
Qed.
Print Assumptions factory_shares_equals.

Example factory_example :
  factory_run [] [XByte 65; XRange 48 57; XByte 65; XSet bs_empty; XByte 66; XRange 48 57]
    = ([XByte 65; XRange 48 57; XSet bs_empty; XByte 66], [0; 1; 0; 2; 3; 1]%nat).
Proof. reflexivity. Qed.
