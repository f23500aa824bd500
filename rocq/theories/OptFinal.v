(** finalizeGraph for every depth: it ends, keeps every keyword, and gives the code generator what it
    needs.  Its result does not depend on the fuel. *)
From Coq Require Import Sorting.Permutation.
From Verif Require Import Base NfaModel ByteSetModel VmModel CodegenLayout CodegenModel CodegenSpec CodegenTotal CodegenSem Thm_Codegen BuildModel BuildProofs OptModel OptSpec OptPrune OptMergeLang OptMergeBest OptLive OptGuard OptZero OptPipe OptGroups OptSubset OptSubsetSem.
Open Scope nat_scope.

(** * More fuel changes nothing *)
Lemma bind_ok {A B} (r : res A) (k : A -> res B) b : bind r k = Ok b -> exists a, r = Ok a /\ k a = Ok b.
Proof. destruct r; simpl; try discriminate. eauto. Qed.

Lemma unlabel_mono : forall F F' g u r, F <= F' -> unlabel F g u = Ok r -> unlabel F' g u = Ok r.
Proof.
  induction F as [|F IH]; intros [|F'] g u r H E; destruct u as [|v u]; simpl in *; auto; try lia; try discriminate.
  apply bind_ok in E as (g1 & -> & E). cbn [bind]. apply bind_ok in E as (x & -> & E). cbn [bind]. apply bind_ok in E as (n & -> & E). cbn [bind]. eapply IH; eauto. lia.
Qed.
Lemma label_parents_mono F F' label : F <= F' -> forall hs g next r, label_parents F g label hs next = Ok r -> label_parents F' g label hs next = Ok r.
Proof.
  intros H. induction hs as [|h hs IH]; intros g next r E; cbn [label_parents] in *; auto.
  apply bind_ok in E as (t & -> & E). cbn [bind]. apply bind_ok in E as (l & -> & E). cbn [bind]. destruct (negb t); auto. destruct (l =? NOLABEL)%N.
  - apply bind_ok in E as (g1 & -> & E). cbn [bind]. auto.
  - destruct (l =? UNLABELABLE)%N; auto. destruct (l =? label)%N; auto. apply bind_ok in E as (g1 & E1 & E). rewrite (unlabel_mono F F' _ _ _ H E1). cbn [bind]. auto.
Qed.
Lemma label_back_mono label : forall F F' g next r, F <= F' -> label_back F g label next = Ok r -> label_back F' g label next = Ok r.
Proof.
  induction F as [|F IH]; intros [|F'] g next r H E; destruct next as [|t next]; cbn [label_back] in *; auto; try lia; try discriminate.
  apply bind_ok in E as (x & -> & E). cbn [bind]. apply bind_ok in E as ([g1 n] & E1 & E). rewrite (label_parents_mono (S F) (S F') label H _ _ _ _ E1). cbn [bind]. eapply IH; eauto. lia.
Qed.
Lemma propagate_mono F F' : F <= F' -> forall ms g r, propagate F g ms = Ok r -> propagate F' g ms = Ok r.
Proof.
  intros H. induction ms as [|m ms IH]; intros g r E; cbn [propagate] in *; auto. apply bind_ok in E as (x & -> & E). cbn [bind]. destruct (v_match x); auto.
  apply bind_ok in E as (g1 & E1 & E). rewrite (label_back_mono _ _ _ _ _ _ H E1). cbn [bind]. auto.
Qed.
Lemma heads_loop_mono : forall F F' g next vi he r, F <= F' -> heads_loop F g next vi he = Ok r -> heads_loop F' g next vi he = Ok r.
Proof.
  induction F as [|F IH]; intros [|F'] g next vi he r H E; destruct next as [|t next]; cbn [heads_loop] in *; auto; try lia; try discriminate.
  apply bind_ok in E as (x & -> & E). cbn [bind]. apply bind_ok in E as ([[[g1 n] v1] h1] & -> & E). cbn [bind]. eapply IH; eauto. lia.
Qed.
Lemma unlabel_rest_mono : forall F F' g next vi r, F <= F' -> unlabel_rest F g next vi = Ok r -> unlabel_rest F' g next vi = Ok r.
Proof.
  induction F as [|F IH]; intros [|F'] g next vi r H E; destruct next as [|t next]; cbn [unlabel_rest] in *; auto; try lia; try discriminate.
  apply bind_ok in E as (x & -> & E). cbn [bind]. apply bind_ok in E as ([[g1 n] v1] & -> & E). cbn [bind]. eapply IH; eauto. lia.
Qed.
Lemma guards_mono F F' g r : F <= F' -> labelGuardStates F g = Ok r -> labelGuardStates F' g = Ok r.
Proof.
  intros H E. unfold labelGuardStates, propagateMatchLabels, removeNonMinimalLabels in *. apply bind_ok in E as (g1 & E1 & E). rewrite (propagate_mono F F' H _ _ _ E1). cbn [bind].
  apply bind_ok in E as ([[g2 vi] he] & E2 & E). rewrite (heads_loop_mono F F' _ _ _ _ _ H E2). cbn [bind]. eapply unlabel_rest_mono; eauto.
Qed.
Lemma subset_loop_mono src limit : forall F F' d r, F <= F' -> subset_loop F src limit d = Ok r -> subset_loop F' src limit d = Ok r.
Proof.
  induction F as [|F IH]; intros [|F'] d r H E; cbn [subset_loop] in *; destruct (d_stack d) as [|[ss n] st]; auto; try lia; try discriminate.
  destruct (find_state (d_map d) ss); [|discriminate]. apply bind_ok in E as (d1 & -> & E). cbn [bind]. eapply IH; eauto. lia.
Qed.
Lemma complete_loop_mono src : forall F F' d next r, F <= F' -> complete_loop F src d next = Ok r -> complete_loop F' src d next = Ok r.
Proof.
  induction F as [|F IH]; intros [|F'] d next r H E; destruct next as [|h next]; cbn [complete_loop] in *; auto; try lia; try discriminate.
  apply bind_ok in E as (o & -> & E). cbn [bind]. destruct o; [|discriminate]. apply bind_ok in E as (x & -> & E). cbn [bind]. apply bind_ok in E as (y & -> & E). cbn [bind].
  apply bind_ok in E as ([d2 k] & -> & E). cbn [bind]. eapply IH; eauto. lia.
Qed.
Lemma subset_mono src limit F F' r : F <= F' -> subsetDFA F src limit = Ok r -> subsetDFA F' src limit = Ok r.
Proof.
  intros H E. unfold subsetDFA in *. apply bind_ok in E as (d & E1 & E). rewrite (subset_loop_mono _ _ _ _ _ _ H E1). cbn [bind]. apply bind_ok in E as (d' & E2 & E). rewrite (complete_loop_mono _ _ _ _ _ _ H E2). auto.
Qed.
Lemma finalize_mono F F' det limit g r : F <= F' -> finalizeGraph F det limit g = Ok r -> finalizeGraph F' det limit g = Ok r.
Proof.
  intros H E. unfold finalizeGraph in *. destruct (length g <? 2); auto. apply bind_ok in E as (g1 & E1 & E). destruct (negb (limit =? 0)%N && negb det).
  - rewrite (subset_mono _ _ _ _ _ H E1). cbn [bind]. eapply guards_mono; eauto.
  - rewrite E1. cbn [bind]. eapply guards_mono; eauto.
Qed.

(** * subsetDFA *)
Theorem subset_spec src limit L fuel : fsm_core src L -> outs src 0 <> [] -> subset_fuel src <= fuel ->
  exists g, subsetDFA fuel src limit = Ok g /\ fsm_core g L /\ outs g 0 <> [] /\ (forall l, same_keyword src g l) /\ ((N.of_nat (length g) <= limit)%N -> no_parallel g).
Proof.
  intros C NE HF. pose proof (fc_ok _ _ C) as F. destruct (subset_built src F limit fuel HF) as (d & E & P). exists (d_dst d). split; auto. split; [eapply subset_core; eauto|].
  pose proof (pi_s _ _ _ _ P) as I. pose proof (si_root _ _ I) as R. split; [|split; [|eapply subset_nodup; eauto]].
  - destruct (outs src 0) as [|c r] eqn:Eo; [congruence|]. destruct (edge_bounds src 0 c F) as (C0 & CL & _); [rewrite Eo; left; auto|]. destruct (enters_some src F c C0 CL) as (b & Hb).
    destruct (child_byte src limit d F P root_key 0 c b R) as (e & He & _); auto; [unfold succs; simpl; rewrite app_nil_r, Eo; left; auto|]. intros X. rewrite X in He. destruct He.
  - intros l. split.
    + intros w. unfold matches. destruct (accepts_subset src limit d F P l w) as (A & _). rewrite (A root_key 0 NOLABEL R). simpl. split; [intros (v & [<-|[]] & H); auto|intros H; exists 0; auto].
    + intros w pos. destruct (best_subset src limit d F P l w) as (A & _). rewrite (A root_key 0 NOLABEL pos R). simpl. destruct (best src l NOLABEL w 0 pos); auto.
Qed.

(** * finalizeGraph *)
Theorem finalize_any g n det limit : fsm_inv g (fun l => (l < N.of_nat n)%N) -> (N.of_nat n <= UNLABELABLE)%N -> outs g 0 <> [] ->
  exists g' K F0, (forall F, F0 <= F -> finalizeGraph F det limit g = Ok g') /\ good0 g' K /\ (zero_ok g' -> good g' K) /\ (forall l, same_keyword g g' l) /\
    ((N.of_nat n <= two24)%N -> (N.of_nat (length g') < two24)%N -> (limit = 0 \/ det = true \/ N.of_nat (length g') <= limit)%N \/ no_parallel g' -> compilable g').
Proof.
  intros I HN NE. assert (R : In (hd 0 (outs g 0)) (outs g 0)) by (destruct (outs g 0); [congruence|left; auto]).
  destruct (edge_bounds g 0 _ (fi_ok _ _ I) R) as (C0 & CL & VL). assert (L2 : 2 <= length g) by lia.
  (* the automaton whose guard states are marked *)
  assert (X : exists g1 F1, (forall F, F1 <= F -> (if negb (limit =? 0)%N && negb det then subsetDFA F g limit else Ok g) = Ok g1) /\ fsm_core g1 (fun l => (l < N.of_nat n)%N) /\ outs g1 0 <> [] /\ (forall l, same_keyword g g1 l) /\
     ((limit = 0 \/ det = true \/ N.of_nat (length g1) <= limit)%N -> no_parallel g1)).
  { destruct (negb (limit =? 0)%N && negb det) eqn:Ed.
    - destruct (subset_spec g limit _ (subset_fuel g) (inv_core _ _ I) NE (le_n _)) as (g1 & E & C & O & S & ND). exists g1, (subset_fuel g). split; [intros F HF; eapply subset_mono; eauto|]. split; auto. split; auto. split; auto.
      clear E. intros [->|[->|H]]; [discriminate Ed|rewrite andb_false_r in Ed; discriminate Ed|auto].
    - exists g, 0. split; auto. split; [apply inv_core; auto|]. split; auto. split; [intros l; split; [tauto|auto]|]. intros _. apply (fi_nodup _ _ I). }
  destruct X as (g1 & F1 & E1 & C1 & O1 & S1 & ND1). clear I NE R C0 CL VL.
  assert (R : In (hd 0 (outs g1 0)) (outs g1 0)) by (destruct (outs g1 0); [congruence|left; auto]).
  destruct (edge_bounds g1 0 _ (fc_ok _ _ C1) R) as (C0 & CL & VL). assert (L21 : 2 <= length g1) by lia.
  destruct (guard_spec g1 _ C1) with (F := guard_fuel g1) as (g' & K & E & G & L & SH & BE & MA); auto; [intros l; simpl; lia|].
  exists g', K, (Nat.max F1 (guard_fuel g1)). split.
  { intros F HF. unfold finalizeGraph. destruct (Nat.ltb_spec (length g) 2); [lia|]. rewrite E1 by lia. cbn [bind]. eapply guards_mono; [|exact E]. lia. }
  split; [exact G|].
  assert (BK : forall v x, nth_error g' v = Some x -> exists y, nth_error g1 v = Some y /\ v_out x = v_out y /\ v_match x = v_match y /\ (v_label x = NOLABEL \/ (v_label x < N.of_nat n)%N)).
  { intros v x Ex. assert (HL : v < length g1) by (rewrite <- L; apply nth_error_Some; congruence). destruct (nth_lt g1 v HL) as (y & Ey). destruct (SH v y Ey) as (l & El & Hl). rewrite El in Ex. injection Ex as <-. exists y. auto. }
  assert (OE : forall v, outs g' v = outs g1 v).
  { intros v. unfold outs. destruct (nth_error g' v) as [x|] eqn:Ex; [destruct (BK v x Ex) as (y & -> & -> & _); auto|].
    destruct (nth_error g1 v) eqn:Ey; auto. apply nth_error_None in Ex. assert (v < length g1) by (apply nth_error_Some; congruence). lia. }
  split; [|split].
  - intros Z. split; auto. intros d c x Ed Hc Ex Ox. destruct (v_match x) eqn:Mx; auto. exfalso.
    assert (Oc : outs g' c = [d]) by (unfold outs; rewrite Ex; auto).
    destruct (Z d c) as (d' & Hd' & Nd); auto; [rewrite Ed; intros i [<-|[]]; auto|unfold mat; rewrite Ex; auto|rewrite Oc; left; auto|].
    rewrite Oc in Hd'. destruct Hd' as [<-|[]]. congruence.
  - intros l. apply same_trans with g1; auto. split; auto.
  - intros HN2 HL2 HP. assert (NP : no_parallel g') by (destruct HP as [HP|HP]; [|exact HP]; intros v; rewrite OE; apply ND1; rewrite <- L; exact HP). split.
    + intros v x Ex. specialize (NP v). unfold outs in NP. rewrite Ex in NP. auto.
    + intros v x Ex. destruct (BK v x Ex) as (y & Ey & _ & _ & [H1|H1]); auto. right. lia.
    + auto.
    + destruct (fc_live _ _ C1 _ C0 CL) as (l & A). assert (X : forall u, arrives g1 l u -> exists v x, nth_error g' v = Some x /\ v_match x = true); [|eauto].
      intros u Au. induction Au as [v Mv Lv|]; auto. unfold mat in Mv. destruct (nth_error g1 v) as [y|] eqn:Ey; [|discriminate].
      destruct (SH v y Ey) as (l' & El & _). exists v. eexists. split; [exact El|auto].
Qed.
