(** A state that only leads to the only successor of the root can be compiled wrongly
    (landing_zero_refuted in Thm_Codegen.v).  Automata made without determinization have no such
    state, unless perhaps there is just one keyword and it matches a single byte. *)
From Verif Require Import Base NfaModel VmModel CodegenSpec Thm_Codegen BuildModel BuildProofs BuildTree OptModel OptSpec OptPrune OptMerge OptMergeLang OptMergeBest OptLive.
Open Scope nat_scope.

Definition zero_ok (g : nfa) : Prop := forall d c, (forall i, In i (outs g 0) -> i = d) -> c <> 0 -> mat g c = false -> In d (outs g c) -> exists d', In d' (outs g c) /\ d' <> d.

Lemma built_zero g0 f label g : built g0 f label g -> (label < NOLABEL)%N -> zero_ok g.
Proof.
  intros BU HL d c Hd C0 Mc Hu. destruct (bu_root _ _ _ _ BU) as (x & Ex & _ & _ & _ & _ & Ox). assert (O0 : outs g 0 = f_in f) by (unfold outs; rewrite Ex; auto).
  assert (CL : 1 <= c < length g0) by (rewrite <- (bu_len _ _ _ _ BU); split; [lia|]; eapply outs_in; eauto).
  destruct (built_at g0 f label g BU c CL) as (y & Ey & Oy & My & _). assert (Oc : outs g c = outs g0 c) by (unfold outs at 1; rewrite Ey; auto).
  rewrite Oc in *. apply (fo_zero _ _ _ _ (bu_frag _ _ _ _ BU) d c); auto; [rewrite <- O0; auto|].
  unfold mat in Mc. rewrite Ey, My in Mc. destruct (exit_of (f_out f) c) eqn:E; [discriminate|]. apply exit_of_none in E. auto.
Qed.

Lemma kept_all B M : forall l mbs, mbs = 0%N -> (forall t, In t l -> M t = false /\ B t <> 0%N) -> kept B M mbs l = l.
Proof.
  induction l as [|t l IH]; intros mbs -> H; auto. cbn [kept]. rewrite N.ldiff_0_r. destruct (H t (or_introl eq_refl)) as (Mt & Bt).
  apply N.eqb_neq in Bt. rewrite Bt, Mt. f_equal. apply IH; auto. intros; apply H; right; auto.
Qed.

(** No state next to the root is a match *)
Lemma prune_zero g fuel g' : fsm_ok g -> outs g 0 <> [] -> (forall c, In c (outs g 0) -> mat g c = false) -> pruneBranches fuel g = Ok g' -> length g <= fuel -> zero_ok g -> zero_ok g'.
Proof.
  intros F NE NM H HF Z. destruct (prune_spec g fuel F HF) as (g1 & H1 & F' & L & A & O & _). rewrite H in H1. injection H1 as <-.
  assert (O0 : outs g' 0 = outs g 0).
  { destruct (O 0) as [|E]; auto. rewrite E. apply kept_all; auto. intros t Ht. split; auto. destruct (edge_bounds g 0 t F Ht) as (T0 & TL & _). apply bts_nonzero; auto. }
  intros d c Hd C0 Mc Hu. rewrite O0 in Hd. rewrite (mat_attrs g) in Mc by auto.
  destruct (O c) as [E|E]; rewrite E in *; [apply Z; auto|]. pose proof (kept_in _ _ _ _ _ Hu) as Hu'.
  destruct (Z d c Hd C0 Mc Hu') as (d' & Hd' & Nd). destruct (in_dec Nat.eq_dec d' (kept (bts g) (mat g) 0 (outs g c))) as [Hi|Hi]; eauto.
  destruct (edge_bounds g c d' F Hd') as (D0 & DL & _). destruct (bts_bit g d' F D0 DL) as (b & Hb).
  destruct (kept_behind (bts g) (mat g) b (outs g c) 0%N d' Hd' Hi Hb (N.bits_0 b)) as (m & Hm & Mm). exists m. split; auto. intros ->.
  destruct (outs g 0) as [|i l] eqn:Eo; [congruence|]. assert (i = d) by (apply Hd; left; auto). subst i. rewrite NM in Mm by (left; auto). discriminate.
Qed.

(** Merging: nothing is asked of the automaton that was there before. *)
Lemma merge_zero dst0 src fuel g : fsm_ok dst0 -> fsm_ok src -> (forall v, v < length dst0 -> reach dst0 v) -> merge_fuel src <= fuel -> outs src 0 <> [] ->
  zero_ok src \/ outs dst0 0 <> [] -> mergeIntoFSM fuel dst0 src = Ok g -> zero_ok g.
Proof.
  intros D0 S0 R0 HF NE Z E. destruct (merge_spec dst0 src D0 S0 R0 (fun _ _ => True) fuel) as (s & E' & M & _); auto. rewrite E in E'. injection E' as ->.
  intros d c Hd C0 Mc Hu. destruct (outs src 0) as [|r l] eqn:Er; [congruence|]. assert (Hr : In r (outs src 0)) by (rewrite Er; left; auto).
  assert (IM : forall i, In i (outs src 0) -> im s i d).
  { intros i Hi. destruct (im_edge dst0 src s M 0 i 0 (mi_im0 _ _ _ _ M) Hi) as (x & Ix & Hx). rewrite <- (Hd x Hx). auto. }
  assert (NZ : forall q i, In i (outs src q) -> i <> 0) by (intros q i Hi; apply (edge_bounds src q i S0 Hi)).
  destruct (mi_J _ _ _ _ M r d c (NZ 0 r Hr) (IM r Hr) Hu) as (q & Hq & Iq).
  assert (Q0 : q <> 0) by (intros ->; pose proof (mi_im0 _ _ _ _ M) as I0; unfold im in *; rewrite I0 in Iq; congruence).
  assert (DEG : length (ins src r) <> 1).
  { intros L. assert (H0 : In 0 (ins src r)) by (apply (sym_in src 0 r (fk_sym _ S0)); auto). assert (H1 : In q (ins src r)) by (apply (sym_in src q r (fk_sym _ S0)); auto).
    destruct (ins src r) as [|a [|b t]]; try discriminate. destruct H0 as [->|[]], H1 as [H1|[]]. congruence. }
  assert (UQ : forall p, p <> 0 -> im s p d -> p = r).
  { intros p Hp Ip. destruct (Nat.eq_dec p r) as [|Hn]; auto. exfalso. apply DEG. eapply (mi_S _ _ _ _ M r p d); eauto. }
  destruct Z as [Z|Z].
  - destruct (mi_im _ _ _ _ M q c Iq Q0) as (_ & _ & _ & _ & Mq). destruct (Z r q) as (r' & Hr' & Nr); auto; [intros i Hi; apply UQ; auto; eapply NZ; eauto|congruence|].
    destruct (im_edge dst0 src s M q r' c Iq Hr') as (x & Ix & Hx). exists x. split; auto. intros ->. apply Nr. apply UQ; auto. eapply NZ; eauto.
  - exfalso. destruct (outs dst0 0) as [|o t] eqn:Eo; [congruence|]. assert (Z0 : 0 < length dst0) by (apply (lt_n0 dst0 D0)).
    assert (Ho : In o (outs (m_dst s) 0)). { pose proof (mi_filter _ _ _ _ M 0 Z0) as X. rewrite Eo in X. assert (Y : In o (filter (fun c => c <? length dst0) (outs (m_dst s) 0))) by (rewrite X; left; auto). apply filter_In in Y. tauto. }
    assert (o < length dst0) by (apply (edge_bounds dst0 0 o D0); rewrite Eo; left; auto). assert (o = d) by auto. subst o.
    apply DEG. eapply (mi_O _ _ _ _ M r d); eauto.
Qed.

