(** What adding patterns keeps true of the automaton, and what the passes after it need. *)
From Verif Require Import Base NfaModel VmModel CodegenSpec Thm_Codegen BuildModel BuildProofs BuildTree OptModel OptSpec OptPrune OptMerge OptMergeLang OptMergeBest.
Open Scope nat_scope.

(** From [v] a match of keyword [l] can be reached. *)
Inductive arrives (g : nfa) (l : N) : nat -> Prop :=
| ar_here v : mat g v = true -> lbl g v = l -> arrives g l v
| ar_step v c : In c (outs g v) -> arrives g l c -> arrives g l v.

(** From every state some match can be reached; what can be reached from a match state belongs to
    the same keyword. *)
Definition live (g : nfa) : Prop := forall v, v <> 0 -> v < length g -> exists l, arrives g l v.
Definition owned (g : nfa) : Prop := forall v l, mat g v = true -> arrives g l v -> l = lbl g v.

Record fsm_inv (g : nfa) (L : N -> Prop) : Prop := {
  fi_ok : fsm_ok g;
  fi_reach : forall v, v < length g -> reach g v;
  fi_live : live g;
  fi_owned : owned g;
  fi_nodup : no_parallel g;
  fi_labels : labels_in g L
}.

(** What is needed of it for marking guard states *)
Record fsm_core (g : nfa) (L : N -> Prop) : Prop := {
  fc_ok : fsm_ok g;
  fc_reach : forall v, v < length g -> reach g v;
  fc_live : live g;
  fc_owned : owned g;
  fc_labels : labels_in g L
}.

Lemma inv_core g L : fsm_inv g L -> fsm_core g L.
Proof. intros [A B C D E G]. split; auto. Qed.

(** The automaton of no patterns *)
Lemma empty_inv : fsm_inv [v_new] (fun _ => False).
Proof.
  assert (O : forall v, outs [v_new] v = []) by (intros [|[|v]]; reflexivity).
  assert (M : forall v, mat [v_new] v = false) by (intros [|[|v]]; reflexivity).
  split.
  - split.
    + exists v_new. repeat split.
    + intros [|[|v]] x H E; [congruence|discriminate|discriminate].
    + intros [|[|v]] x H E; [congruence|discriminate|discriminate].
    + intros [|[|v]] x E; [|discriminate|discriminate]. injection E as <-. simpl. split; [discriminate|intros H; destruct H; reflexivity].
    + apply sym_new.
  - intros [|v] H; [constructor|simpl in H; lia].
  - intros v H0 H. simpl in H. lia.
  - intros v l H. rewrite M in H. discriminate.
  - intros v. rewrite O. constructor.
  - intros [|[|v]]; left; reflexivity.
Qed.

(** * The automaton of one pattern *)
Lemma built_fsm g0 f label g : built g0 f label g -> (label < NOLABEL)%N -> fsm_ok g /\ labels_in g (fun l => l = label) /\ live g.
Proof.
  intros BU HL. destruct (built_shape g0 f label g BU HL) as (R & ST & ED & _).
  assert (LB : forall v x, nth_error g v = Some x -> v_label x = (if v_match x then label else NOLABEL)).
  { intros [|v] x E; [|apply (ST (S v)); auto]. destruct R as (y & Ey & _ & My & Ly & _). rewrite E in Ey. injection Ey as <-. rewrite My, Ly. auto. }
  split; [|split].
  - split.
    + destruct R as (y & Ey & H1 & H2 & H3 & H4 & _). exists y. auto.
    + intros v x H0 E. apply (ST v x H0 E).
    + intros v x H0 E. apply (ST v x H0 E).
    + intros v x E. rewrite (LB v x E). destruct (v_match x); split; intros; try congruence. lia.
    + apply BU.
  - intros v. unfold lbl. destruct (nth_error g v) as [x|] eqn:E; auto. rewrite (LB v x E). destruct (v_match x); auto.
  - intros v H0 H. rewrite (bu_len _ _ _ _ BU) in H. assert (Hv : 1 <= v < length g0) by lia. exists label.
    pose proof (fo_live _ _ _ _ (bu_frag _ _ _ _ BU) v Hv) as T. clear H0 H. induction T as [v Hi|v u Hu Ht IH].
    + apply ar_here; destruct (built_at g0 f label g BU v Hv) as (x & Ex & _ & Mx & Lx & _); unfold mat, lbl; rewrite Ex; destruct (exit_of (f_out f) v) eqn:E; auto; apply exit_of_none in E; tauto.
    + apply ar_step with u; [rewrite (bu_outs _ _ _ _ BU) by lia; auto|]. apply IH. apply (fo_edge _ _ _ _ (bu_frag _ _ _ _ BU) v); auto.
Qed.

(** * Pruning *)
Lemma kept_behind B M b : forall l mbs t, In t l -> ~ In t (kept B M mbs l) -> N.testbit (B t) b = true -> N.testbit mbs b = false ->
  exists m, In m (kept B M mbs l) /\ M m = true.
Proof.
  induction l as [|x l IH]; intros mbs t Ht Hn Hb Hm; [destruct Ht|]. cbn [kept] in *.
  destruct (N.eqb_spec (N.ldiff (B x) mbs) 0) as [E|E].
  - destruct Ht as [->|Ht].
    + exfalso. assert (Z : N.testbit (N.ldiff (B t) mbs) b = true) by (rewrite N.ldiff_spec, Hb, Hm; auto). rewrite E, N.bits_0 in Z. discriminate.
    + apply (IH _ t); auto. destruct (M x); auto. rewrite E, N.lor_0_r. auto.
  - destruct Ht as [->|Ht]; [destruct Hn; left; auto|]. destruct (M x) eqn:Mx; [exists x; split; auto; left; auto|].
    destruct (IH mbs t) as (m & H1 & H2); auto; [intros H; apply Hn; right; auto|]. exists m. split; auto. right. auto.
Qed.

Lemma bts_bit g t : fsm_ok g -> t <> 0 -> t < length g -> exists b, N.testbit (bts g t) b = true.
Proof.
  intros F H0 H. pose proof (bts_nonzero g t F H0 H) as Z. exists (N.log2 (bts g t)). apply N.bit_log2. auto.
Qed.

Lemma prune_live g fuel g' : fsm_ok g -> pruneBranches fuel g = Ok g' -> length g <= fuel -> live g -> live g'.
Proof.
  intros F H HF LV v H0 HL. destruct (prune_spec g fuel F HF) as (g1 & H1 & F' & L & A & O & _). rewrite H in H1. injection H1 as <-.
  rewrite L in HL. destruct (LV v H0 HL) as (l & AR). clear H0 HL. induction AR as [v M LB|v c Hc AR IH].
  - exists l. apply ar_here; [rewrite (mat_attrs g); auto|rewrite (lbl_attrs g); auto].
  - destruct (in_dec Nat.eq_dec c (outs g' v)) as [Hi|Hi].
    + destruct IH as (l' & IH). exists l'. apply ar_step with c; auto.
    + destruct (O v) as [E|E]; rewrite E in Hi; [tauto|]. destruct (edge_bounds g v c F Hc) as (C0 & CL & _). destruct (bts_bit g c F C0 CL) as (b & Hb).
      destruct (kept_behind (bts g) (mat g) b (outs g v) 0%N c Hc Hi Hb) as (m & Hm & Mm); [apply N.bits_0|].
      exists (lbl g' m). apply ar_step with m; [rewrite E; auto|]. apply ar_here; auto. rewrite (mat_attrs g); auto.
Qed.

(** * Merging *)
Section Merged.
Variables (dst0 src : nfa) (label : N) (L : N -> Prop).
Hypothesis I0 : fsm_inv dst0 L.
Hypothesis S0 : fsm_ok src.
Hypothesis SL : labels_in src (fun l => l = label).
Hypothesis SV : live src.
Hypothesis FL : ~ L label.
Hypothesis LL : label <> NOLABEL.
Variable s : merge.
Hypothesis M : minv dst0 src s [].
Let D0 := fi_ok _ _ I0.
Let R0 := fi_reach _ _ I0.
Let g := m_dst s.
Let n0 := length dst0.

Lemma fresh v : lbl dst0 v <> label.
Proof. intros E. destruct (fi_labels _ _ I0 v) as [H|H]; [congruence|]. rewrite E in H. auto. Qed.

Lemma kept_edge v c : In c (outs dst0 v) -> In c (outs g v).
Proof.
  intros H. assert (HL : v < n0) by (eapply outs_in; eauto). rewrite <- (mi_filter _ _ _ _ M v HL) in H. apply filter_In in H. tauto.
Qed.

Lemma arrives_old l v : arrives dst0 l v -> arrives g l v.
Proof.
  intros H. induction H as [v HM HL|v c Hc H IH].
  - assert (HV : v < n0) by (apply mat_lt; auto). apply ar_here; [rewrite (mat_attrs dst0)|rewrite (lbl_attrs dst0)]; auto; apply (mi_attr _ _ _ _ M); auto.
  - apply ar_step with c; auto. apply kept_edge. auto.
Qed.

Lemma arrives_new l p : arrives src l p -> forall d, im s p d -> arrives g l d.
Proof.
  intros H. induction H as [p HM HL|p c Hc H IH]; intros d I.
  - assert (P0 : p <> 0). { intros ->. unfold mat in HM. destruct (fk_root _ S0) as (x & E & _ & X & _). rewrite E in HM. congruence. }
    destruct (mi_im _ _ _ _ M p d I P0) as (_ & _ & _ & X & Y). fold g in X, Y. apply ar_here; congruence.
  - destruct (im_edge dst0 src s M p c d I Hc) as (e & Ie & He). apply ar_step with e; auto.
Qed.

Lemma merged_live : live g.
Proof.
  intros v H0 HL. destruct (Nat.lt_ge_cases v n0) as [HO|HO].
  - destruct (fi_live _ _ I0 v H0 HO) as (l & A). exists l. apply arrives_old. auto.
  - destruct (mi_new _ _ _ _ M v (conj HO HL)) as (p & P0 & I & _). destruct (SV p P0) as (l & A); [apply (im_lt dst0 src D0 R0 s [] p v M I)|]. exists l. eapply arrives_new; eauto.
Qed.

Lemma not_image_below v l : v <> 0 -> (forall p, ~ im s p v) -> arrives g l v -> v < n0 /\ arrives dst0 l v.
Proof.
  intros H0 HN A. induction A as [v HM HL|v c Hc A IH].
  - assert (HV : v < n0). { destruct (Nat.lt_ge_cases v n0) as [|HO]; auto. destruct (mi_new _ _ _ _ M v) as (p & _ & I & _); [split; auto; apply mat_lt; auto|]. destruct (HN p I). }
    split; auto. pose proof (mi_attr _ _ _ _ M v HV) as AT. apply ar_here; [rewrite <- (mat_attrs dst0 _ _ AT)|rewrite <- (lbl_attrs dst0 _ _ AT)]; auto.
  - destruct (edge_bounds g v c (done_ok dst0 src D0 S0 R0 s M) Hc) as (C0 & _).
    assert (HC : forall q, ~ im s q c).
    { intros q I. assert (Q0 : q <> 0) by (intros ->; apply C0; eapply (im0' dst0 src s M); eauto). destruct (mi_J _ _ _ _ M q c v Q0 I Hc) as (r & _ & Ir). apply (HN r Ir). }
    destruct (IH C0 HC) as (CL & AC). destruct (mi_edge _ _ _ _ M v c Hc) as [(HV & He)|(p & i & q & _ & Ip & _)]; [|destruct (HN p Ip)].
    split; auto. apply ar_step with c; auto.
Qed.

Lemma new_below v l : n0 <= v -> arrives g l v -> l = label.
Proof.
  intros HV A. induction A as [v HM HL|v c Hc A IH].
  - assert (HG : v < length g) by (apply mat_lt; auto). destruct (mi_new _ _ _ _ M v (conj HV HG)) as (p & P0 & I & _).
    destruct (mi_im _ _ _ _ M p v I P0) as (_ & _ & _ & X & Y). fold g in X, Y. rewrite HL in X. rewrite HM in Y. destruct (SL p) as [Z|Z]; [|congruence].
    exfalso. symmetry in Y. apply (match_label src p S0) in Y. auto.
  - apply IH. apply (mi_newfrom _ _ _ _ M v); auto.
Qed.

Lemma merged_owned : owned g.
Proof.
  intros v l HM A. pose proof (done_ok dst0 src D0 S0 R0 s M) as G. fold g in G. assert (HG : v < length g) by (apply mat_lt; auto).
  assert (V0 : v <> 0). { intros ->. unfold mat in HM. destruct (fk_root _ G) as (x & E & _ & X & _). rewrite E in HM. congruence. }
  destruct (Nat.lt_ge_cases v n0) as [HO|HO].
  - pose proof (mi_attr _ _ _ _ M v HO) as AT. assert (LV : lbl g v <> NOLABEL) by (apply match_label; auto).
    assert (LO : lbl g v = lbl dst0 v) by (apply (lbl_attrs dst0); auto).
    assert (HN : forall p, ~ im s p v).
    { intros p I. assert (P0 : p <> 0) by (intros ->; apply V0; eapply (im0' dst0 src s M); eauto). destruct (mi_im _ _ _ _ M p v I P0) as (_ & _ & _ & X & _). fold g in X.
      destruct (SL p) as [Z|Z]; [congruence|]. apply (fresh v). congruence. }
    destruct (not_image_below v l V0 HN A) as (_ & A'). rewrite LO. apply (fi_owned _ _ I0); auto. rewrite <- (mat_attrs dst0 _ _ AT). auto.
  - rewrite (new_below v l HO A). symmetry. apply (new_below v); auto. apply ar_here; auto.
Qed.
End Merged.

Theorem merge_inv dst0 src label L fuel : fsm_inv dst0 L -> fsm_ok src -> labels_in src (fun l => l = label) -> live src -> ~ L label -> label <> NOLABEL -> merge_fuel src <= fuel ->
  exists g, mergeIntoFSM fuel dst0 src = Ok g /\ fsm_inv g (fun l => L l \/ l = label).
Proof.
  intros I0 S0 SL SV FL LL HF. pose proof (fi_ok _ _ I0) as D0. pose proof (fi_reach _ _ I0) as R0.
  destruct (merge_spec dst0 src D0 S0 R0 (fun s _ => no_parallel (m_dst s)) fuel) as (s & E & M & NP); auto.
  - intros s sh si rest dh st g' dt di M X Ih Hst NV P v. pose proof (step_graph dst0 src D0 S0 R0 s sh si dh st rest g' dt di M Ih Hst NV P) as G.
    change (NoDup (outs g' v)). destruct (Nat.eq_dec v dh) as [->|Hn]; [|rewrite (gs_other _ _ _ _ _ _ _ _ G) by auto; apply X].
    destruct (gs_head _ _ _ _ _ _ _ _ G) as [(_ & -> & _)|(Hin & -> & Hd & _)]; [apply X|apply nodup_spliced; auto; apply X].
  - apply (fi_nodup _ _ I0).
  - exists (m_dst s). split; auto. split; auto.
    + exact (done_ok dst0 src D0 S0 R0 s M).
    + apply (mi_reach _ _ _ _ M).
    + apply (merged_live dst0 src L I0 S0 SV s M).
    + apply (merged_owned dst0 src label L I0 S0 SL FL LL s M).
    + intros v. destruct (Nat.lt_ge_cases v (length dst0)) as [HO|HO].
      * rewrite (lbl_attrs dst0) by (apply (mi_attr _ _ _ _ M); auto). destruct (fi_labels _ _ I0 v); auto.
      * destruct (Nat.lt_ge_cases v (length (m_dst s))) as [HL|HL].
        -- destruct (new_lbl dst0 src label SL s M v (conj HO HL)); auto.
        -- left. unfold lbl. replace (nth_error (m_dst s) v) with (@None vertex); auto. symmetry. apply nth_error_None. auto.
Qed.
