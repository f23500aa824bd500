(** What the automata of patterns and of sets of patterns have in common. *)
From Verif Require Import Base NfaModel VmModel CodegenSpec BuildModel BuildProofs.
Open Scope nat_scope.

Record fsm_ok (g : nfa) : Prop := {
  fk_root : exists x, nth_error g 0 = Some x /\ v_trans x = None /\ v_match x = false /\ v_label x = NOLABEL /\ v_in x = [];
  fk_state : forall v x, v <> 0 -> nth_error g v = Some x -> exists t, v_trans x = Some t /\ trans_ok t;
  fk_leaf : forall v x, v <> 0 -> nth_error g v = Some x -> v_out x = [] -> v_match x = true;
  fk_label : forall v x, nth_error g v = Some x -> (v_match x = true <-> v_label x <> NOLABEL);
  fk_sym : sym g
}.

(** The bytes on which [v] is entered, and whether it is a match state *)
Definition bts (g : nfa) (v : nat) : N :=
  match nth_error g v with Some x => match v_trans x with Some t => bytes_of t | None => 0%N end | None => 0%N end.
Definition mat (g : nfa) (v : nat) : bool := match nth_error g v with Some x => v_match x | None => false end.
Definition lbl (g : nfa) (v : nat) : N := match nth_error g v with Some x => v_label x | None => NOLABEL end.

Lemma bts_attrs g g' v : attrs g' v = attrs g v -> bts g' v = bts g v.
Proof. unfold attrs, bts. destruct (nth_error g' v), (nth_error g v); simpl; intros H; try discriminate; auto. injection H as -> _ _. auto. Qed.
Lemma mat_attrs g g' v : attrs g' v = attrs g v -> mat g' v = mat g v.
Proof. unfold attrs, mat. destruct (nth_error g' v), (nth_error g v); simpl; intros H; try discriminate; auto. injection H as _ -> _. auto. Qed.
Lemma lbl_attrs g g' v : attrs g' v = attrs g v -> lbl g' v = lbl g v.
Proof. unfold attrs, lbl. destruct (nth_error g' v), (nth_error g v); simpl; intros H; try discriminate; auto. injection H as _ _ ->. auto. Qed.

Lemma edge_bounds g v c : fsm_ok g -> In c (outs g v) -> c <> 0 /\ c < length g /\ v < length g.
Proof.
  intros F H. split; [|split; [eapply sym_bounded; eauto; apply F|eapply outs_in; eauto]].
  intros ->. destruct (fk_root _ F) as (x & E & _ & _ & _ & I). apply (sym_in g v 0 (fk_sym _ F)) in H. unfold ins in H. rewrite E, I in H. destruct H.
Qed.

Lemma nth_lt {A} (l : list A) v : v < length l -> exists x, nth_error l v = Some x.
Proof. intros H. destruct (nth_error l v) eqn:E; eauto. apply nth_error_None in E. lia. Qed.

Lemma state_at g v : fsm_ok g -> v <> 0 -> v < length g -> exists t m l o i, nth_error g v = Some (mkV (Some t) m l o i) /\ trans_ok t.
Proof.
  intros F H0 H. destruct (nth_lt g v H) as ([t m l o i] & E). destruct (fk_state _ F v _ H0 E) as (t' & Et & T). simpl in Et. subst t. exists t', m, l, o, i. auto.
Qed.

Lemma bytes_at_bts g v : fsm_ok g -> v <> 0 -> v < length g -> bytes_at g v = Ok (bts g v).
Proof. intros F H0 H. destruct (state_at g v F H0 H) as (t & m & l & o & i & E & _). unfold bytes_at, bts, get. rewrite E. reflexivity. Qed.

Lemma allowed_bytes t b : trans_ok t -> allowed t b = N.testbit (bytes_of t) b.
Proof.
  intros T. destruct t as [x|x y|f l|s]; cbn [allowed bytes_of trans_ok] in *; auto.
  - destruct (N.eqb_spec b x) as [->|Hn]; [symmetry; apply N.setbit_eq|rewrite N.setbit_neq by congruence; symmetry; apply N.bits_0].
  - destruct (N.eqb_spec b y) as [->|Hy]; [rewrite N.setbit_eq, orb_true_r; auto|rewrite N.setbit_neq by congruence; rewrite orb_false_r].
    destruct (N.eqb_spec b x) as [->|Hn]; [symmetry; apply N.setbit_eq|rewrite N.setbit_neq by congruence; symmetry; apply N.bits_0].
  - unfold bits_between. destruct (N.leb_spec f b) as [Hf|Hf]; simpl.
    + rewrite N.shiftl_spec_high' by auto. destruct (N.leb_spec b l) as [Hl|Hl]; [rewrite N.ones_spec_low by lia|rewrite N.ones_spec_high by lia]; auto.
    + rewrite N.shiftl_spec_low by lia. auto.
Qed.

Lemma enters_bts g v b : fsm_ok g -> v <> 0 -> enters g v b = N.testbit (bts g v) b.
Proof.
  intros F H0. unfold enters, bts. destruct (nth_error g v) as [x|] eqn:E; [|symmetry; apply N.bits_0].
  destruct (fk_state _ F v x H0 E) as (t & -> & T). apply allowed_bytes; auto.
Qed.

Lemma match_label g v : fsm_ok g -> mat g v = true <-> lbl g v <> NOLABEL.
Proof. intros F. unfold mat, lbl. destruct (nth_error g v) as [x|] eqn:E; [apply (fk_label _ F _ _ E)|]. split; [discriminate|congruence]. Qed.

(** The labels of an automaton *)
Definition labels_in (g : nfa) (L : N -> Prop) : Prop := forall v, lbl g v = NOLABEL \/ L (lbl g v).
