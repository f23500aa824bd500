(** When the exits of a fragment are behind all successors: then the order in which the automaton
    tries its ways is that of the fragment. *)
From Coq Require Import List NArith ZArith Bool Lia PeanoNat.
From Verif Require Import Base VmModel NfaModel CodegenSpec PatModel PatSpec RewriteProofs Thm_Rewrite BuildModel BuildSpec BuildProofs BuildTree.
Import ListNotations.
Open Scope nat_scope.

Definition skip_last (f : frag) : Prop := match f_skip f with Some s => s = length (f_in f) | None => True end.

Lemma skip_nil g g' f (F : word -> list word) : step_ok g g' f -> (forall w, oeq (frag_ways g' f w) (F w)) -> (f_skip f <> None <-> In [] (F [])).
Proof.
  intros _ W. rewrite <- (oeq_in _ _ (W [])). unfold frag_ways, visit.
  assert (R : forall l, flat_map (runs g' (exit_of (f_out f)) []) l = []) by (induction l; auto).
  destruct (f_skip f); rewrite !R; simpl; split; auto; try easy. 
Qed.

Definition lastly (bt : nfa -> res (nfa * frag)) (E S : Prop) : Prop :=
  forall g, sym g -> 0 < length g -> match bt g with
    | Ok (g', f) => (E -> exit_last g' f) /\ (S -> skip_last f)
    | _ => True
    end.

Lemma lastly_weak bt E S (E' S' : Prop) : lastly bt E S -> (E' -> E) -> (S' -> S) -> lastly bt E' S'.
Proof. intros H A B g Sg Z. specialize (H g Sg Z). destruct (bt g) as [[g' f]| | |]; tauto. Qed.

Lemma lastly_alt bt1 bt2 F1 F2 thr1 thr2 E1 S1 E2 S2 : builds bt1 F1 thr1 -> builds bt2 F2 thr2 -> lastly bt1 E1 S1 -> lastly bt2 E2 S2 ->
  lastly (fun g => ' (g1, f1) <- bt1 g ;; ' (g2, f2) <- bt2 g1 ;; Ok (g2, alternate f1 f2)) (E1 /\ E2) (~ In [] (F1 []) /\ S2).
Proof.
  intros H1 H2 L1 L2 g S Z. specialize (H1 g S Z). specialize (L1 g S Z). destruct (bt1 g) as [[g1 f1]| | |]; cbn [bind]; auto. destruct H1 as (T1 & P1 & W1).
  assert (Sg1 : sym g1) by apply P1. assert (Z1 : 0 < length g1) by (pose proof (proj1 (proj1 P1)); lia).
  specialize (H2 g1 Sg1 Z1). specialize (L2 g1 Sg1 Z1). destruct (bt2 g1) as [[g2 f2]| | |]; cbn [bind]; auto. destruct H2 as (T2 & P2 & W2).
  destruct L1 as (L1 & L1'), L2 as (L2 & L2'). split.
  - intros (HE1 & HE2) v p Hv. unfold alternate in Hv; cbn [f_out] in Hv. apply in_app_or in Hv as [Hv|Hv].
    + rewrite (L1 HE1 v p Hv). apply (fo_out _ _ _ _ (proj2 (proj2 P1))) in Hv. destruct P2 as ((_ & _ & Kb) & _). rewrite Kb; auto; lia.
    + apply (L2 HE2 v p Hv).
  - intros (Hn & HS). unfold skip_last, alternate; cbn [f_skip f_in]. 
    destruct (f_skip f1) as [s|] eqn:Es; [exfalso; apply Hn; apply (skip_nil g g1 f1 F1 P1 W1); congruence|].
    specialize (L2' HS). unfold skip_last in L2'. destruct (f_skip f2); auto. rewrite app_length. lia.
Qed.

Lemma lastly_cat bt1 bt2 F1 F2 thr1 thr2 E1 S1 E2 S2 : builds bt1 F1 thr1 -> builds bt2 F2 thr2 -> lastly bt1 E1 S1 -> lastly bt2 E2 S2 ->
  lastly (fun g => ' (g1, f1) <- bt1 g ;; ' (g2, f2) <- bt2 g1 ;; concatenate g2 f1 f2)
    (E2 /\ (In [] (F2 []) -> E1 /\ S2)) (In [] (F1 []) -> In [] (F2 []) -> S1 /\ S2).
Proof.
  intros H1 H2 L1 L2 g S Z. specialize (H1 g S Z). specialize (L1 g S Z). destruct (bt1 g) as [[g1 f1]| | |]; cbn [bind]; auto. destruct H1 as (T1 & P1 & W1).
  assert (Sg1 : sym g1) by apply P1. assert (Z1 : 0 < length g1) by (pose proof (proj1 (proj1 P1)); lia).
  specialize (H2 g1 Sg1 Z1). specialize (L2 g1 Sg1 Z1). destruct (bt2 g1) as [[g2 f2]| | |]; cbn [bind]; auto. destruct H2 as (T2 & P2 & W2).
  destruct L1 as (L1 & L1'), L2 as (L2 & L2'). pose proof (skip_nil _ _ _ _ P1 W1) as N1. pose proof (skip_nil _ _ _ _ P2 W2) as N2.
  destruct P1 as (K1 & S1' & OK1). destruct P2 as (K2 & S2' & OK2).
  assert (FR : forall v, v < length g1 -> outs g2 v = outs g1 v) by (intros; apply K2; auto).
  unfold concatenate. destruct (patch_mid_spec (f_in f2) (f_skip f2) (f_out f1) g2) as (g3 & -> & L3 & A3 & O3 & S3); auto.
  { apply (fo_nodup _ _ _ _ OK1). }
  { apply Forall_forall. intros [v p] Hv. simpl. apply (fo_out _ _ _ _ OK1) in Hv. rewrite FR by lia. destruct K2. lia. }
  { apply Forall_forall. intros v Hv. apply (fo_in _ _ _ _ OK2) in Hv. lia. }
  cbn [bind]. split.
  - intros (HE2 & HN) v p Hv. cbn [f_out] in Hv.
    assert (C2 : In (v, p) (f_out f2) -> p = length (outs g3 v)).
    { intros H. rewrite (L2 HE2 v p H). apply (fo_out _ _ _ _ OK2) in H. rewrite O3.
      destruct (exit_of (f_out f1) v) eqn:E; auto. apply exit_of_some in E. apply (fo_out _ _ _ _ OK1) in E. lia. }
    destruct (f_skip f2) as [s|] eqn:Es; auto. apply in_app_or in Hv as [Hv|Hv]; auto.
    apply in_map_iff in Hv as ([u q] & E & Hq). simpl in E. injection E as -> <-.
    destruct HN as (HE1 & HS2); [apply N2; congruence|]. specialize (L2' HS2). unfold skip_last in L2'. rewrite Es in L2'.
    rewrite O3, (exit_of_in _ _ _ (fo_nodup _ _ _ _ OK1) Hq). pose proof (L1 HE1 v q Hq) as Eq. apply (fo_out _ _ _ _ OK1) in Hq.
    assert (Hsp : length (spliced q (outs g2 v) (f_in f2)) = length (outs g2 v) + length (f_in f2)).
    { unfold spliced. rewrite !app_length, firstn_length, skipn_length. rewrite FR by lia. lia. }
    rewrite Hsp, FR by lia. cbn [stop_of]. lia.
  - intros HS. unfold skip_last; cbn [f_skip f_in]. destruct (f_skip f1) as [s|] eqn:Es1, (f_skip f2) as [s'|] eqn:Es2; auto.
    destruct HS as (HS1 & HS2); [apply N1; congruence|apply N2; congruence|]. specialize (L1' HS1). specialize (L2' HS2). unfold skip_last in *.
    rewrite Es1 in L1'. rewrite Es2 in L2'. subst s s'. rewrite firstn_all, skipn_all, app_nil_r, app_length. auto.
Qed.

Lemma lastly_opt bt F thr gr E S : builds bt F thr -> lastly bt E S ->
  lastly (fun g => ' (g1, f1) <- bt g ;; Ok (g1, optional_frag gr f1)) E (gr = true /\ (In [] (F []) -> S)).
Proof.
  intros H L g Sg Z. specialize (H g Sg Z). specialize (L g Sg Z). destruct (bt g) as [[g1 f1]| | |]; cbn [bind]; auto. destruct H as (_ & P & W).
  pose proof (skip_nil _ _ _ _ P W) as N. destruct L as (L & L'). split.
  - intros HE. unfold exit_last, optional_frag. destruct gr; exact (L HE).
  - intros (-> & HS). unfold skip_last, optional_frag, question in *; cbn [f_skip f_in]. destruct (f_skip f1) as [s|]; auto.
    assert (Es : s = length (f_in f1)) by (apply L', HS, N; discriminate). subst s. rewrite Nat.ltb_irrefl. auto.
Qed.

Lemma lastly_plus bt F thr gr E S : builds bt F thr -> lastly bt E S ->
  lastly (fun g => ' (g1, f1) <- bt g ;; plus g1 f1 gr) (gr = true /\ E) S.
Proof.
  intros H L g Sg Z. specialize (H g Sg Z). specialize (L g Sg Z). destruct (bt g) as [[g1 f1]| | |]; cbn [bind]; auto. destruct H as (_ & P & W).
  destruct L as (L & L'). destruct P as (K1 & S1 & OK1).
  assert (Ep : plus g1 f1 gr = (' (g2, out) <- patch_mid g1 (f_out f1) (f_in f1) (Some (if gr then length (f_in f1) else 0)) ;; Ok (g2, mkF (f_in f1) out (f_skip f1)))).
  { unfold plus, patch_pre, patch_post. destruct gr; auto. }
  rewrite Ep. destruct (patch_mid_spec (f_in f1) (Some (if gr then length (f_in f1) else 0)) (f_out f1) g1) as (g3 & -> & L3 & A3 & O3 & S3); auto.
  { apply (fo_nodup _ _ _ _ OK1). }
  { apply Forall_forall. intros [v p] Hv. simpl. apply (fo_out _ _ _ _ OK1) in Hv. lia. }
  { apply Forall_forall. intros v Hv. apply (fo_in _ _ _ _ OK1) in Hv. lia. }
  cbn [bind]. split; [|intros HS; specialize (L' HS); exact L'].
  intros (-> & HE) v p Hv. cbn [f_out] in Hv. apply in_map_iff in Hv as ([u q] & E' & Hq). simpl in E'. injection E' as -> <-.
  rewrite O3, (exit_of_in _ _ _ (fo_nodup _ _ _ _ OK1) Hq). pose proof (L HE v q Hq) as Eq. apply (fo_out _ _ _ _ OK1) in Hq.
  unfold spliced. rewrite !app_length, firstn_length, skipn_length. cbn [stop_of]. lia.
Qed.

(** Only a fragment that can be skipped has to be skipped last. *)
Lemma lastly_null bt F thr E S : builds bt F thr -> lastly bt E S -> lastly bt E (In [] (F []) -> S).
Proof.
  intros H L g Sg Z. specialize (H g Sg Z). specialize (L g Sg Z). destruct (bt g) as [[g1 f1]| | |]; cbn [bind]; auto. destruct H as (_ & P & W).
  pose proof (skip_nil _ _ _ _ P W) as N. destruct L as (L & L'). split; auto. intros HS. unfold skip_last in *. destruct (f_skip f1); auto.
  apply L', HS, N. discriminate.
Qed.

Lemma lastly_copies bt F thr last G thr' k E S E' S' : builds bt F thr -> builds last G thr' -> lastly bt E S -> lastly last E' S' ->
  lastly (copies bt k last) (E' /\ E /\ S' /\ S) (S' /\ S).
Proof.
  intros B B' L L'. induction k as [|k IH]; cbn [copies].
  - eapply lastly_weak; [exact L'|tauto|tauto].
  - eapply lastly_weak; [eapply (lastly_cat _ _ _ _ _ _ _ _ _ _ B (builds_copies _ _ _ _ _ _ k B B') L IH)|tauto|tauto].
Qed.

Lemma lastly_options bt F thr gr k E S : builds bt F thr -> lastly bt E S -> lastly (options bt gr k) (gr = true /\ E /\ S) (gr = true /\ S).
Proof.
  intros B L. induction k as [|k IH]; cbn [options].
  - eapply lastly_weak; [apply (lastly_opt _ _ _ gr _ _ B L)|tauto|tauto].
  - pose proof (builds_cat _ _ _ _ _ _ B (builds_options _ _ _ gr k B)) as BC.
    pose proof (lastly_cat _ _ _ _ _ _ _ _ _ _ B (builds_options _ _ _ gr k B) L IH) as LC.
    pose proof (lastly_opt _ _ _ gr _ _ BC LC) as LO.
    intros g Sg Z. specialize (LO g Sg Z). revert LO. cbn beta.
    destruct (bt g) as [[g1 f1]| | |]; cbn [bind]; auto. destruct (options bt gr k g1) as [[g2 f2]| | |]; cbn [bind]; auto.
    destruct (concatenate g2 f1 f2) as [[g3 f3]| | |]; cbn [bind]; auto. tauto.
Qed.

(** * Trees *)

(** Whatever can be skipped is skipped last: the empty branch of an alternation comes last, and
    options are greedy. *)
Fixpoint skip_ok (t : pnode) : Prop :=
  hasZeroLengthMatch t = true ->
  match t with
  | PLook _ _ | PAtom _ => True
  | PAlt l r => hasZeroLengthMatch l = false /\ skip_ok r
  | PCat l r => skip_ok l /\ skip_ok r
  | PRep gr t mn mx => (gr = true \/ mn = mx) /\ skip_ok t
  end.

(** The end of the tree has no choice between going on and stopping in favour of stopping. *)
Fixpoint tail_ok (t : pnode) : Prop :=
  match t with
  | PLook _ _ | PAtom _ => True
  | PAlt l r => tail_ok l /\ tail_ok r
  | PCat l r => tail_ok r /\ (hasZeroLengthMatch r = true -> tail_ok l /\ skip_ok r)
  | PRep gr t mn mx => tail_ok t /\ ((gr = true \/ mn = mx) /\ skip_ok t \/ mn = 0%N /\ mx = 1%N)
  end.

Lemma lang_nil A t : leaves_nonempty A -> bounds_ok t -> (lang A t [] <-> hasZeroLengthMatch t = true).
Proof.
  intros HN. induction t as [k t IH|l IHl r IHr|l IHl r IHr|gr t IH mn mx|a]; cbn [lang hasZeroLengthMatch bounds_ok]; intros HB.
  - split; [tauto|discriminate].
  - rewrite orb_true_iff, IHl, IHr by tauto. tauto.
  - rewrite andb_true_iff, <- IHl, <- IHr by tauto. split.
    + intros (u & v & E & Hu & Hv). symmetry in E. apply app_eq_nil in E as [-> ->]. auto.
    + intros [Hu Hv]. exists [], []. auto.
  - destruct HB as (B1 & B2 & B3 & B4). rewrite orb_true_iff, N.eqb_eq, <- IH by auto. unfold within. split.
    + intros (n & (W1 & _) & Hp). destruct n as [|n]; [left; lia|]. right. destruct Hp as (u & v & E & Hu & _). symmetry in E. apply app_eq_nil in E as [-> ->]. auto.
    + intros [->|Ht].
      * exists 0. split; [split; [lia|right; lia]|]. reflexivity.
      * exists (N.to_nat mn). split; [split; [lia|right; lia]|]. induction (N.to_nat mn) as [|n IHn]; [reflexivity|]. exists [], []. auto.
  - split; [intros H; exfalso; exact (HN a H)|discriminate].
Qed.

Section Tree.
Context (enc : enc_if) (A : atom -> word -> Prop) (am : atom -> word -> list word) (thr : atom -> Prop).
Hypothesis HL : leaves_ok A am.
Hypothesis HN : leaves_nonempty A.

Lemma tries_nil t : bounds_ok t -> (In [] (tries am t []) <-> hasZeroLengthMatch t = true).
Proof.
  intros HB. rewrite (tries_lang A am t HL HN HB). rewrite <- (lang_nil A t HN HB). split.
  - intros (p & E & H). symmetry in E. apply app_eq_nil in E as [-> _]. auto.
  - intros H. exists []. auto.
Qed.

Lemma atom_lastly a : (forall g, match build_atom enc g a with Ok (g', f) => skip_last f /\ exit_last g' f | _ => True end) ->
  lastly (fun g => build_atom enc g a) True True.
Proof. intros H g _ _. specialize (H g). destruct (build_atom enc g a) as [[g' f]| | |]; tauto. Qed.

Lemma tree_lastly t : (forall a, In a (atoms t) -> builds (fun g => build_atom enc g a) (am a) (thr a)) ->
  (forall a, In a (atoms t) -> lastly (fun g => build_atom enc g a) True True) -> has_look t = false -> bounds_ok t -> no_zero t ->
  lastly (build_tree enc t) (tail_ok t) (skip_ok t).
Proof.
  induction t as [k t IH|l IHl r IHr|l IHl r IHr|gr t IH mn mx|a]; intros HA HF HK HB HZ.
  - discriminate.
  - cbn [has_look bounds_ok no_zero atoms] in HA, HF, HK, HB, HZ. apply orb_false_elim in HK as [HK1 HK2]. destruct HB as [HB1 HB2]. destruct HZ as [HZ1 HZ2].
    assert (A1 : forall a, In a (atoms l) -> builds (fun g => build_atom enc g a) (am a) (thr a)) by (intros; apply HA, in_or_app; auto).
    assert (A2 : forall a, In a (atoms r) -> builds (fun g => build_atom enc g a) (am a) (thr a)) by (intros; apply HA, in_or_app; auto).
    pose proof (build_tree_spec enc am thr l A1 HK1 HB1 HZ1) as B1. pose proof (build_tree_spec enc am thr r A2 HK2 HB2 HZ2) as B2.
    assert (L1 : lastly (build_tree enc l) (tail_ok l) (skip_ok l)) by (apply IHl; auto; intros; apply HF, in_or_app; auto).
    assert (L2 : lastly (build_tree enc r) (tail_ok r) (skip_ok r)) by (apply IHr; auto; intros; apply HF, in_or_app; auto).
    eapply lastly_weak; [apply (lastly_null _ _ _ _ _ (builds_alt _ _ _ _ _ _ B1 B2) (lastly_alt _ _ _ _ _ _ _ _ _ _ B1 B2 L1 L2))|cbn [tail_ok]; tauto|].
    rewrite in_app_iff. cbn [skip_ok]. rewrite tries_nil, tries_nil by auto. cbn [hasZeroLengthMatch]. rewrite orb_true_iff.
    intros H K. destruct (H K) as (-> & ?). split; [discriminate|auto].
  - cbn [has_look bounds_ok no_zero atoms] in HA, HF, HK, HB, HZ. apply orb_false_elim in HK as [HK1 HK2]. destruct HB as [HB1 HB2]. destruct HZ as [HZ1 HZ2].
    assert (A1 : forall a, In a (atoms l) -> builds (fun g => build_atom enc g a) (am a) (thr a)) by (intros; apply HA, in_or_app; auto).
    assert (A2 : forall a, In a (atoms r) -> builds (fun g => build_atom enc g a) (am a) (thr a)) by (intros; apply HA, in_or_app; auto).
    pose proof (build_tree_spec enc am thr l A1 HK1 HB1 HZ1) as B1. pose proof (build_tree_spec enc am thr r A2 HK2 HB2 HZ2) as B2.
    assert (L1 : lastly (build_tree enc l) (tail_ok l) (skip_ok l)) by (apply IHl; auto; intros; apply HF, in_or_app; auto).
    assert (L2 : lastly (build_tree enc r) (tail_ok r) (skip_ok r)) by (apply IHr; auto; intros; apply HF, in_or_app; auto).
    eapply lastly_weak; [apply (lastly_cat _ _ _ _ _ _ _ _ _ _ B1 B2 L1 L2)| |].
    + cbn [tail_ok]. rewrite tries_nil by auto. tauto.
    + cbn [skip_ok]. rewrite !tries_nil by auto. cbn [hasZeroLengthMatch]. rewrite andb_true_iff. tauto.
  - cbn [has_look bounds_ok no_zero atoms] in HA, HF, HK, HB, HZ. destruct HB as (C1 & C2 & C3 & C4). destruct HZ as (Z1 & Z2).
    pose proof (build_tree_spec enc am thr t HA HK C4 Z2) as B. specialize (IH HA HF HK C4 Z2).
    set (F := tries am t) in *. set (bt := build_tree enc t) in *. set (T := some_throws thr t) in *.
    assert (NF : In [] (F []) <-> hasZeroLengthMatch t = true) by (apply tries_nil; auto).
    pose proof (builds_plus _ _ _ gr B) as Bp. pose proof (lastly_plus _ _ _ gr _ _ B IH) as Lp.
    intros g Sg Z. cbn [build_tree]. cbv zeta. fold bt. unfold two32 in *. change UNBOUNDED with 4294967295%N in *.
    destruct ((mn =? 0)%N && (mx =? 1)%N) eqn:E1.
    { apply andb_true_iff in E1 as [E1 E2]. apply N.eqb_eq in E1, E2. subst mn mx. revert g Sg Z. eapply lastly_weak; [apply (lastly_opt _ _ _ gr _ _ B IH)| |].
      - cbn [tail_ok]. tauto.
      - cbn [skip_ok hasZeroLengthMatch]. change (0 =? 0)%N with true. cbn [orb]. intros H. destruct (H eq_refl) as ([Hg|Hm] & Hs); [auto|discriminate]. }
    destruct ((mn =? 0)%N && (mx =? 4294967295)%N) eqn:E2.
    { apply andb_true_iff in E2 as [E2 E3]. apply N.eqb_eq in E2, E3. subst mn mx. revert g Sg Z. eapply lastly_weak; [apply (lastly_opt _ _ _ gr _ _ Bp Lp)| |].
      - cbn [tail_ok]. intros (Ht & [[[Hg|Hm] _]|[_ Hm]]); [auto|discriminate|discriminate].
      - cbn [skip_ok hasZeroLengthMatch]. change (0 =? 0)%N with true. cbn [orb]. intros H. destruct (H eq_refl) as ([Hg|Hm] & Hs); [auto|discriminate]. }
    destruct ((mn =? 1)%N && (mx =? 4294967295)%N) eqn:E3.
    { apply andb_true_iff in E3 as [E4 E5]. apply N.eqb_eq in E4, E5. subst mn mx. revert g Sg Z. eapply lastly_weak; [apply (lastly_null _ _ _ _ _ Bp Lp)| |].
      - cbn [tail_ok]. intros (Ht & [[[Hg|Hm] _]|[_ Hm]]); [auto|discriminate|discriminate].
      - cbn [skip_ok hasZeroLengthMatch]. change (1 =? 0)%N with false. cbn [orb]. intros H K. 
        assert (N1 : In [] (F [])).
        { unfold plus_ways in K. apply in_flat_map in K as (r & Hr & _). assert (r = []); [|subst; auto].
          apply (tries_lang A am t HL HN C4) in Hr. destruct Hr as (p & E & _). symmetry in E. apply app_eq_nil in E. tauto. }
        apply H. apply NF. auto. }
    assert (NB : forall bt' F' thr' E' S', builds bt' F' thr' -> lastly bt' E' S' -> (In [] (F' []) -> mn = 0%N \/ In [] (F [])) ->
        lastly bt' E' (hasZeroLengthMatch (PRep gr t mn mx) = true -> S')).
    { intros bt' F' thr' E' S' Bx Lx HX. eapply lastly_weak; [apply (lastly_null _ _ _ _ _ Bx Lx)|auto|].
      intros H K. apply H. cbn [hasZeroLengthMatch]. rewrite orb_true_iff, N.eqb_eq, <- NF. auto. }
    assert (SH : forall r, In r (F []) -> r = []).
    { intros r Hr. apply (tries_lang A am t HL HN C4) in Hr. destruct Hr as (p & E & _). symmetry in E. apply app_eq_nil in E. tauto. }
    assert (SN : forall k r, In r (steps F k []) -> r = [] /\ (k = 0 \/ In [] (F []))).
    { induction k as [|k IHk]; intros r Hr; [destruct Hr as [<-|[]]; auto|]. cbn [steps] in Hr. apply in_flat_map in Hr as (y & Hy & Hr).
      assert (y = []) by auto. subst y. destruct (IHk r Hr) as (-> & _). auto. }
    destruct (N.eqb_spec mn mx) as [<-|Hne].
    { revert g Sg Z. pose proof (builds_copies _ _ _ _ _ _ (N.to_nat mn - 1) B B) as BC.
      pose proof (lastly_copies _ _ _ _ _ _ (N.to_nat mn - 1) _ _ _ _ B B IH IH) as LC.
      eapply lastly_weak; [eapply (NB _ _ _ _ _ BC LC)| |].
      - intros K. apply in_flat_map in K as (y & Hy & K). right. destruct (SN _ _ Hy) as (-> & _). auto.
      - cbn [tail_ok]. intros (Ht & [[_ Hs]|[-> E]]); [tauto|discriminate].
      - cbn [skip_ok]. intros H K. specialize (H K). tauto. }
    destruct (N.eqb_spec mx 4294967295) as [->|Hmx].
    { revert g Sg Z. pose proof (builds_copies _ _ _ _ _ _ (N.to_nat mn - 1) B Bp) as BC.
      pose proof (lastly_copies _ _ _ _ _ _ (N.to_nat mn - 1) _ _ _ _ B Bp IH Lp) as LC.
      eapply lastly_weak; [eapply (NB _ _ _ _ _ BC LC)| |].
      - intros K. apply in_flat_map in K as (y & Hy & K). right. destruct (SN _ _ Hy) as (-> & _).
        unfold plus_ways in K. apply in_flat_map in K as (r & Hr & _). rewrite (SH r Hr) in Hr. auto.
      - cbn [tail_ok]. intros (Ht & [[[Hg|Hm] Hs]|[-> E]]); [tauto|congruence|discriminate].
      - cbn [skip_ok]. intros H K. specialize (H K). tauto. }
    revert g Sg Z. replace ((mx + 4294967296 - mn) mod 4294967296)%N with (mx - mn)%N by (zify; lia).
    set (k := N.to_nat (mx - mn) - 1).
    pose proof (builds_options _ _ _ gr k B) as BO. pose proof (lastly_options _ _ _ gr k _ _ B IH) as LO.
    pose proof (builds_copies _ _ _ _ _ _ (N.to_nat mn) B BO) as BC. pose proof (lastly_copies _ _ _ _ _ _ (N.to_nat mn) _ _ _ _ B BO IH LO) as LC.
    eapply lastly_weak; [eapply (NB _ _ _ _ _ BC LC)| |].
    + intros K. apply in_flat_map in K as (y & Hy & _). destruct (SN _ _ Hy) as (_ & [E|E]); [left; lia|auto].
    + cbn [tail_ok]. intros (Ht & [[[Hg|Hm] Hs]|[-> E]]); [tauto|congruence|]. subst mx. discriminate E1.
    + cbn [skip_ok]. intros H K. specialize (H K). tauto.
  - eapply lastly_weak; [apply HF; left; auto|auto|auto].
Qed.
End Tree.

Lemma build_last enc label t F thr E S g : builds (build_tree enc t) F thr -> lastly (build_tree enc t) E S -> build enc label (Some t) = Ok (Some g) ->
  exists g0 f, built g0 f label g /\ (forall w, oeq (frag_ways g0 f w) (F w)) /\ (E -> exit_last g0 f).
Proof.
  intros B L EB. pose proof (build_spec enc label t F thr B) as H. rewrite EB in H. destruct H as (_ & _ & g0 & f & ET & BU & W).
  exists g0, f. split; auto. split; auto. specialize (L [v_new] sym_new (le_n 1)). rewrite ET in L. apply L.
Qed.
