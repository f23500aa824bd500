(** Whole trees, and the automaton build() makes of one. *)
From Coq Require Import List NArith ZArith Bool Lia PeanoNat.
From Verif Require Import Base VmModel NfaModel CodegenSpec CodegenLayout Thm_Codegen RangeSetModel ByteSetModel ByteSetProofs Thm_ByteSet
  PatModel PatSpec RewriteProofs Thm_Rewrite BuildModel BuildSpec BuildProofs.
Import ListNotations.
Open Scope nat_scope.

Fixpoint atoms (t : pnode) : list atom :=
  match t with
  | PLook _ t => atoms t
  | PAlt l r | PCat l r => atoms l ++ atoms r
  | PRep _ t _ _ => atoms t
  | PAtom a => [a]
  end.

Section Tree.
Context (enc : enc_if) (am : atom -> word -> list word) (thr : atom -> Prop).

Definition some_throws (t : pnode) : Prop := exists a, In a (atoms t) /\ thr a.

Lemma some_throws_two t1 t2 t : atoms t = atoms t1 ++ atoms t2 -> (some_throws t1 \/ some_throws t2 <-> some_throws t).
Proof.
  unfold some_throws. intros ->. split.
  - intros [(a & H & T)|(a & H & T)]; exists a; rewrite in_app_iff; auto.
  - intros (a & H & T). apply in_app_or in H as [H|H]; eauto.
Qed.

Lemma flat_map_single {A} (l : list A) : flat_map (fun x => [x]) l = l.
Proof. induction l; simpl; congruence. Qed.

Lemma builds_options_at bt F thr' gr k : builds bt F thr' -> k <> 0 -> builds (options bt gr (k - 1)) (opts_ways F gr k) thr'.
Proof. intros H Hk. destruct k as [|k]; [congruence|]. replace (S k - 1) with k by lia. apply builds_options. auto. Qed.

Lemma build_tree_spec t : (forall a, In a (atoms t) -> builds (fun g => build_atom enc g a) (am a) (thr a)) -> has_look t = false -> bounds_ok t -> no_zero t ->
  builds (build_tree enc t) (tries am t) (some_throws t).
Proof.
  induction t as [k t IH|l IHl r IHr|l IHl r IHr|gr t IH mn mx|a]; intros HA HL HB HZ; cbn [has_look bounds_ok no_zero atoms] in *.
  - discriminate.
  - apply orb_false_elim in HL as [HL1 HL2]. destruct HB as [HB1 HB2]. destruct HZ as [HZ1 HZ2].
    eapply builds_thr; [|apply (some_throws_two l r); reflexivity]. cbn [build_tree tries]. apply builds_alt; [apply IHl|apply IHr]; auto; intros; apply HA, in_or_app; auto.
  - apply orb_false_elim in HL as [HL1 HL2]. destruct HB as [HB1 HB2]. destruct HZ as [HZ1 HZ2].
    eapply builds_thr; [|apply (some_throws_two l r); reflexivity]. cbn [build_tree tries]. apply builds_cat; [apply IHl|apply IHr]; auto; intros; apply HA, in_or_app; auto.
  - destruct HB as (B1 & B2 & B3 & B4). destruct HZ as (Z1 & Z2). specialize (IH HA HL B4 Z2). change (some_throws (PRep gr t mn mx)) with (some_throws t).
    pose proof (builds_plus _ _ _ gr IH) as IHp.
    set (F := tries am t) in *. set (bt := build_tree enc t) in *.
    intros g S Z. cbn [build_tree]. cbv zeta. fold bt. cbn [tries]. fold F. change UNBOUNDED with 4294967295%N in *. unfold two32 in *.
    destruct (N.eqb_spec mn 0) as [->|Hmn]; cbn [andb].
    + destruct (N.eqb_spec mx 1) as [->|Hmx1].
      { change (1 =? 4294967295)%N with false. cbv iota. change (N.to_nat (1 - 0)) with 1. change (N.to_nat 0) with 0. cbn [steps flat_map].
        revert g S Z. change (builds (fun g => ' (g1, f1) <- bt g ;; Ok (g1, optional_frag gr f1)) (fun w => opts_ways F gr 1 w ++ []) (some_throws t)).
        eapply builds_ext; [apply (builds_opt _ _ _ gr IH)|]. intros w. rewrite app_nil_r. cbn [opts_ways]. rewrite flat_map_single. apply oeq_refl. }
      destruct (N.eqb_spec mx 4294967295) as [->|Hmx2].
      { revert g S Z. apply (builds_opt _ _ _ gr IHp). }
      replace (0 =? 1)%N with false by reflexivity. cbn [andb].
      destruct (N.eqb_spec 0 mx) as [<-|Hmx3]; [exfalso; destruct Z1; congruence|].
      revert g S Z. change (builds (copies bt (N.to_nat 0) (options bt gr (N.to_nat ((mx + 4294967296 - 0) mod 4294967296) - 1)))
        (fun w => flat_map (opts_ways F gr (N.to_nat (mx - 0))) (steps F (N.to_nat 0) w)) (some_throws t)).
      change (N.to_nat 0) with 0. replace ((mx + 4294967296 - 0) mod 4294967296)%N with mx by (zify; lia).
      rewrite N.sub_0_r.
      eapply builds_thr; [apply builds_copies; [exact IH|apply builds_options_at; [exact IH|lia]]|tauto].
    + destruct (N.eqb_spec mx 4294967295) as [->|Hmx2].
      { destruct (N.eqb_spec mn 1) as [->|Hmn1]; cbn [andb].
        - change (N.to_nat 1 - 1) with 0. cbn [steps flat_map]. revert g S Z. eapply builds_ext; [apply IHp|]. intros w. rewrite app_nil_r. apply oeq_refl.
        - destruct (N.eqb_spec mn 4294967295); [lia|]. revert g S Z.
          change (builds (copies bt (N.to_nat mn - 1) (fun g => ' (g1, f1) <- bt g ;; plus g1 f1 gr))
            (fun w => flat_map (plus_ways F gr) (steps F (N.to_nat mn - 1) w)) (some_throws t)).
          eapply builds_thr; [apply builds_copies; [exact IH|exact IHp]|tauto]. }
      rewrite andb_false_r. destruct (N.eqb_spec mn mx) as [<-|Hne].
      { rewrite N.sub_diag. change (N.to_nat 0) with 0. cbn [opts_ways]. revert g S Z.
        change (builds (copies bt (N.to_nat mn - 1) bt) (fun w => flat_map (fun w => [w]) (steps F (N.to_nat mn) w)) (some_throws t)).
        eapply builds_thr; [eapply builds_ext; [apply builds_copies; [exact IH|exact IH]|]|tauto]. intros w.
        rewrite flat_map_single. replace (N.to_nat mn) with (Datatypes.S (N.to_nat mn - 1)) at 2 by lia. rewrite steps_snoc. apply oeq_refl. }
      revert g S Z. change (builds (copies bt (N.to_nat mn) (options bt gr (N.to_nat ((mx + 4294967296 - mn) mod 4294967296) - 1)))
        (fun w => flat_map (opts_ways F gr (N.to_nat (mx - mn))) (steps F (N.to_nat mn) w)) (some_throws t)).
      replace ((mx + 4294967296 - mn) mod 4294967296)%N with (mx - mn)%N by (zify; lia).
      eapply builds_thr; [apply builds_copies; [exact IH|apply builds_options_at; [exact IH|lia]]|tauto].
  - eapply builds_thr; [apply HA; left; auto|]. unfold some_throws. cbn [atoms In]. split; [eauto|]. intros (b & [->|[]] & H). auto.
Qed.
End Tree.

(** * The finished automaton *)

(** [g] is fragment [f] of [g0] below the root, with its exits marked. *)
Record built (g0 : nfa) (f : frag) (label : N) (g : nfa) : Prop := {
  bu_frag : frag_ok g0 1 (length g0) f;
  bu_skip : f_skip f = None;
  bu_len : length g = length g0;
  bu_root : exists x, nth_error g 0 = Some x /\ v_trans x = None /\ v_match x = false /\ v_label x = NOLABEL /\ v_in x = [] /\ v_out x = f_in f;
  bu_outs : forall v, 1 <= v -> outs g v = outs g0 v;
  bu_attr : forall v, 1 <= v < length g0 -> exists t, trans_ok t /\ attrs g0 v = Some (Some t, false, NOLABEL) /\
     attrs g v = Some (Some t, match exit_of (f_out f) v with Some _ => true | None => false end, match exit_of (f_out f) v with Some _ => label | None => NOLABEL end);
  bu_sym : sym g
}.

Lemma mark_spec label : forall out g, Forall (fun q => fst q < length g) out ->
  exists g', mark g label out = Ok g' /\ length g' = length g /\ (forall v, outs g' v = outs g v) /\ (forall v, ins g' v = ins g v) /\
    forall v, attrs g' v = match exit_of out v with Some _ => option_map (fun a => (fst (fst a), true, label)) (attrs g v) | None => attrs g v end.
Proof.
  induction out as [|[v p] out IH]; intros g H; cbn [mark].
  - exists g. repeat split; auto.
  - inversion H as [|? ? Hv H']; subst. simpl in Hv. unfold get. destruct (nth_error g v) as [x|] eqn:Ex; [|apply nth_error_None in Ex; lia]. cbn [bind].
    set (x' := mkV _ _ _ _ _). set (g1 := upd g v x').
    assert (N1 : forall u, nth_error g1 u = if u =? v then Some x' else nth_error g u).
    { intros u. unfold g1. destruct (Nat.eqb_spec u v) as [->|]; [apply nth_upd_same; auto|apply nth_upd_other; auto]. }
    destruct (IH g1) as (g' & -> & L & O & I & A).
    { eapply Forall_impl; [|exact H']. unfold g1. rewrite upd_length. auto. }
    exists g'. split; auto. split; [unfold g1 in L; rewrite upd_length in L; auto|].
    split; [|split].
    + intros u. rewrite O. unfold outs. rewrite N1. destruct (Nat.eqb_spec u v) as [->|]; auto. rewrite Ex. auto.
    + intros u. rewrite I. unfold ins. rewrite N1. destruct (Nat.eqb_spec u v) as [->|]; auto. rewrite Ex. auto.
    + intros u. rewrite A, exit_of_cons. rewrite (Nat.eqb_sym v u). unfold attrs. rewrite N1. destruct (Nat.eqb_spec u v) as [->|]; auto.
      rewrite Ex. destruct (exit_of out v); auto.
Qed.

Lemma sym_new : sym [v_new].
Proof. intros h u. destruct u as [|[|u]], h as [|[|h]]; reflexivity. Qed.

(** build() fails exactly for fragments that can be skipped and otherwise adds a root. *)
Lemma build_spec enc label t F thr : builds (build_tree enc t) F thr ->
  match build enc label (Some t) with
  | Ok (Some g) => ~ thr /\ ~ In [] (F []) /\ exists g0 f, build_tree enc t [v_new] = Ok (g0, f) /\ built g0 f label g /\ forall w, oeq (frag_ways g0 f w) (F w)
  | Ok None => ~ thr /\ In [] (F [])
  | Throw => thr
  | _ => False
  end.
Proof.
  intros B. specialize (B [v_new] sym_new (le_n 1)). unfold build. destruct (build_tree enc t [v_new]) as [[g1 f]| | |]; cbn [bind]; auto.
  destruct B as (T & (K & S1 & OK) & W). change (length [v_new]) with 1 in *.
  assert (L1 : 2 <= length g1).
  { destruct (f_in f) as [|v l] eqn:E; [exfalso; apply (fo_in1 _ _ _ _ OK); auto|]. assert (H : 1 <= v < length g1) by (apply (fo_in _ _ _ _ OK); rewrite E; left; auto). lia. }
  assert (A0 : attrs g1 0 = Some (None, false, NOLABEL)) by (destruct K as (_ & Ka & _); rewrite Ka by (simpl; lia); reflexivity).
  assert (O0 : outs g1 0 = []) by (destruct K as (_ & _ & Kb); rewrite Kb by (simpl; lia); reflexivity).
  assert (I0 : ins g1 0 = []).
  { destruct (ins g1 0) as [|h l] eqn:E; auto. exfalso. assert (H : In 0 (outs g1 h)) by (apply sym_in; auto; rewrite E; left; auto).
    destruct h as [|h]; [rewrite O0 in H; easy|]. pose proof (outs_in _ _ _ H). apply (fo_edge _ _ _ _ OK) in H; lia. }
  unfold concatenate, full; cbn [f_in f_out f_skip].
  destruct (patch_mid_spec (f_in f) (f_skip f) [(0, 0)] g1) as (g2 & -> & L2 & A2 & O2 & S2); auto.
  { repeat constructor; simpl; easy. } { repeat constructor; simpl; lia. }
  { apply Forall_forall. intros v Hv. apply (fo_in _ _ _ _ OK) in Hv. lia. }
  cbn [bind map fst snd].
  assert (E0 : existsb (fun p => fst p =? 0) (f_out f) = false).
  { destruct (existsb _ (f_out f)) eqn:E; auto. apply existsb_exists in E as ([v p] & Hv & E). simpl in E. apply Nat.eqb_eq in E. subst v.
    apply (fo_out _ _ _ _ OK) in Hv. lia. }
  assert (NE : In [] (F []) <-> exists s, f_skip f = Some s).
  { rewrite <- (oeq_in _ _ (W [])). unfold frag_ways, visit. 
    assert (R : forall l, flat_map (runs g1 (exit_of (f_out f)) []) l = []) by (induction l; auto).
    destruct (f_skip f) as [s|]; rewrite !R; simpl; split; try easy; eauto. intros (s & X); discriminate. }
  destruct (f_skip f) as [s|] eqn:Es; cbn [f_out].
  { simpl. split; auto. apply NE. eauto. }
  rewrite E0.
  destruct (mark_spec label (f_out f) g2) as (g & -> & L & O & I & A).
  { apply Forall_forall. intros [v p] Hv. apply (fo_out _ _ _ _ OK) in Hv. simpl. lia. }
  cbn [bind]. split; auto. split; [intros X; apply NE in X as (s & X); discriminate|].
  assert (X0 : exit_of (f_out f) 0 = None).
  { destruct (exit_of (f_out f) 0) eqn:E; auto. apply exit_of_some in E. apply (fo_out _ _ _ _ OK) in E. lia. }
  exists g1, f. split; auto. split; auto. constructor; auto.
  - lia.
  - assert (A' := A 0). rewrite X0, A2, A0 in A'. assert (O' := O 0). rewrite O2 in O'. cbn [exit_of find fst Nat.eqb option_map snd] in O'. rewrite O0 in O'.
    assert (I' : ins g 0 = []).
    { destruct (ins g 0) as [|h l] eqn:E; auto. exfalso. assert (H : In 0 (outs g2 h)) by (apply sym_in; auto; rewrite <- I, E; left; auto).
      rewrite O2 in H. rewrite exit_of_cons in H. destruct (Nat.eqb_spec 0 h) as [<-|Hh].
      - rewrite O0 in H. unfold spliced in H. simpl in H. rewrite app_nil_r in H. apply (fo_in _ _ _ _ OK) in H. lia.
      - cbn [exit_of find option_map] in H. pose proof (outs_in _ _ _ H). apply (fo_edge _ _ _ _ OK) in H; lia. }
    unfold attrs, outs, ins in *. destruct (nth_error g 0) as [x|]; [|discriminate]. exists x. simpl in A'. unfold attr in A'. injection A' as E1 E2 E3.
    repeat split; auto. rewrite O'. unfold spliced. simpl. apply app_nil_r.
  - intros v Hv. rewrite O, O2, exit_of_cons. destruct (Nat.eqb_spec 0 v); [lia|]. auto.
  - intros v Hv. destruct (fo_attr _ _ _ _ OK v Hv) as (t0 & Ht & TO). exists t0. split; auto. split; auto. rewrite A, A2, Ht. destruct (exit_of (f_out f) v); auto.
  - intros h u. rewrite I, O. apply S2.
Qed.

(** * What the finished automaton accepts *)
Section Built.
Context (g0 : nfa) (f : frag) (label : N) (g : nfa).
Hypothesis BU : built g0 f label g.
Hypothesis HL : (label < NOLABEL)%N.

Lemma built_at v : 1 <= v < length g0 -> exists x, nth_error g v = Some x /\ v_out x = outs g0 v /\
  v_match x = (match exit_of (f_out f) v with Some _ => true | None => false end) /\
  v_label x = (match exit_of (f_out f) v with Some _ => label | None => NOLABEL end) /\ (exists t, v_trans x = Some t /\ trans_ok t) /\
  forall b, enters g v b = enters g0 v b.
Proof.
  intros Hv. destruct (bu_attr _ _ _ _ BU v Hv) as (t & T & A0 & A). assert (O := bu_outs _ _ _ _ BU v (proj1 Hv)).
  unfold attrs, outs, enters in *. destruct (nth_error g v) as [x|]; [|discriminate]. exists x. simpl in A. unfold attr in A. injection A as E1 E2 E3.
  repeat split; auto; [eauto|]. intros b. rewrite E1. destruct (nth_error g0 v) as [y|]; [|discriminate]. simpl in A0. unfold attr in A0. injection A0 as -> _ _. auto.
Qed.

Lemma runs_accepts : forall w v r lab, 1 <= v < length g0 -> In r (runs g0 (exit_of (f_out f)) w v) ->
  exists b p, w = b :: p ++ r /\ enters g v b = true /\ accepts g label lab p v.
Proof.
  induction w as [|b w IH]; intros v r lab Hv H; [easy|]. cbn [runs] in H. destruct (built_at v Hv) as (x & Ex & Ox & Mx & Lx & _ & En).
  destruct (enters g0 v b) eqn:Eb; [|easy]. exists b.
  assert (STEP : forall u lab', In u (outs g0 v) -> In r (runs g0 (exit_of (f_out f)) w u) -> lab' = newlab x lab -> exists p, w = p ++ r /\ accepts g label lab p v).
  { intros u lab' Hu Hr ->. assert (Hu' : 1 <= u < length g0) by (eapply (fo_edge _ _ _ _ (bu_frag _ _ _ _ BU)); eauto).
    destruct (IH u r (newlab x lab) Hu' Hr) as (c & p & -> & Ec & Ac). exists (c :: p). split; auto.
    apply acc_step with x u; auto. congruence. }
  unfold visit in H. destruct (exit_of (f_out f) v) as [k|] eqn:EX.
  - apply in_app_or in H as [H|[<-|H]].
    + apply in_flat_map in H as (u & Hu & Hr). destruct (STEP u _ (ltac:(rewrite <- (firstn_skipn k (outs g0 v)); apply in_or_app; auto)) Hr eq_refl) as (p & -> & A).
      exists p. rewrite En; auto.
    + exists []. split; auto. rewrite En. split; auto. apply acc_match with x; auto. unfold newlab. rewrite Lx.
      destruct (N.eqb_spec label NOLABEL); auto. lia.
    + apply in_flat_map in H as (u & Hu & Hr). destruct (STEP u _ (ltac:(rewrite <- (firstn_skipn k (outs g0 v)); apply in_or_app; auto)) Hr eq_refl) as (p & -> & A).
      exists p. rewrite En; auto.
  - apply in_flat_map in H as (u & Hu & Hr). destruct (STEP u _ Hu Hr eq_refl) as (p & -> & A). exists p. rewrite En; auto.
Qed.

Lemma accepts_runs l : forall p v r lab, 1 <= v < length g0 -> accepts g l lab p v ->
  forall b, enters g v b = true -> In r (runs g0 (exit_of (f_out f)) (b :: p ++ r) v) /\ l = label.
Proof.
  induction p as [|c p IH]; intros v r lab Hv A b Eb; destruct (built_at v Hv) as (x & Ex & Ox & Mx & Lx & _ & En); cbn [runs app]; rewrite <- En, Eb.
  - inversion A as [? ? y Ey My Ly|]; subst. rewrite Ex in Ey. injection Ey as <-. rewrite Mx in My. unfold visit.
    destruct (exit_of (f_out f) v) as [k|]; [|discriminate]. split; [apply in_or_app; right; left; auto|].
    unfold newlab in *. rewrite Lx in *. destruct (N.eqb_spec label NOLABEL); [lia|auto].
  - inversion A as [|? ? y ? ? u Ey Hu Eu Au]; subst. rewrite Ex in Ey. injection Ey as <-. rewrite Ox in Hu.
    assert (Hu' : 1 <= u < length g0) by (eapply (fo_edge _ _ _ _ (bu_frag _ _ _ _ BU)); eauto).
    destruct (IH u r (newlab x lab) Hu' Au c Eu) as (R & ->). split; auto. unfold visit.
    destruct (exit_of (f_out f) v) as [k|].
    + rewrite <- (firstn_skipn k (outs g0 v)) in Hu. apply in_app_or in Hu as [Hu|Hu]; apply in_or_app; [left|right; right]; apply in_flat_map; eauto.
    + apply in_flat_map. eauto.
Qed.

Lemma built_matches l p r : matches g l p <-> l = label /\ In r (frag_ways g0 f (p ++ r)).
Proof.
  destruct (bu_root _ _ _ _ BU) as (x & Ex & _ & Mx & Lx & _ & Ox). unfold frag_ways. rewrite (bu_skip _ _ _ _ BU). cbn [visit]. rewrite in_flat_map.
  split.
  - intros A. inversion A as [? ? y Ey My|? ? y b w u Ey Hu Eu Au]; subst; rewrite Ex in Ey; injection Ey as <-; [congruence|].
    rewrite Ox in Hu. assert (Hu' := fo_in _ _ _ _ (bu_frag _ _ _ _ BU) _ Hu).
    destruct (accepts_runs l w u r _ Hu' Au b Eu) as (R & ->). split; auto. exists u. auto.
  - intros (-> & u & Hu & R). assert (Hu' := fo_in _ _ _ _ (bu_frag _ _ _ _ BU) _ Hu).
    destruct (runs_accepts _ _ _ NOLABEL Hu' R) as (b & q & E & En & A). change (b :: q ++ r) with ((b :: q) ++ r) in E.
    apply app_inv_tail in E. subst p. apply acc_step with x u; auto; [congruence|]. unfold newlab. rewrite Lx. auto.
Qed.

(** The compiled automaton tries a match state itself after its successors, wherever its exit is. *)
Definition late (v : nat) : option nat := match exit_of (f_out f) v with Some _ => Some (length (outs g0 v)) | None => None end.

Lemma hd_flat_map {A B} (h : A -> list B) l : hd_error (flat_map h l) = first_some (fun a => hd_error (h a)) l.
Proof. induction l as [|a l IH]; auto. simpl. destruct (h a); simpl; auto. Qed.

Lemma first_some_map {A B C} (h : A -> option B) (k : A -> option C) (c : B -> C) l : (forall a, In a l -> k a = option_map c (h a)) ->
  first_some k l = option_map c (first_some h l).
Proof. induction l as [|a l IH]; intros H; auto. simpl. rewrite H by (left; auto). destruct (h a); simpl; auto. apply IH. intros; apply H; right; auto. Qed.

Definition end_at (w : word) (pos : N) (r : word) : N := (pos + N.of_nat (length w) - N.of_nat (length r))%N.

Lemma runs_cons g' ex b w v : runs g' ex (b :: w) v = if enters g' v b then visit (runs g' ex w) (ex v) w (outs g' v) else [].
Proof. auto. Qed.

Lemma best_runs : forall w b v lab pos, 1 <= v < length g0 -> (lab = NOLABEL \/ lab = label) ->
  (if enters g v b then best g label lab w v pos else None) = option_map (end_at w pos) (hd_error (runs g0 late (b :: w) v)).
Proof.
  induction w as [|c w IH]; intros b v lab pos Hv HLab; destruct (built_at v Hv) as (x & Ex & Ox & Mx & Lx & _ & En);
    rewrite En, runs_cons; destruct (enters g0 v b) eqn:Eb; auto; cbn [best]; rewrite Ex.
  - rewrite Mx, Lx. unfold visit, late.
    assert (R : forall l, flat_map (runs g0 late []) l = []) by (induction l; auto). fold late.
    destruct (exit_of (f_out f) v).
    + rewrite !R. destruct (N.eqb_spec label NOLABEL); [lia|]. rewrite N.eqb_refl. simpl. f_equal. unfold end_at. simpl. lia.
    + rewrite R. auto.
  - set (lab' := if (v_label x =? NOLABEL)%N then lab else v_label x).
    assert (HLab' : lab' = NOLABEL \/ lab' = label).
    { unfold lab'. rewrite Lx. destruct (exit_of (f_out f) v); [|rewrite N.eqb_refl; auto]. destruct (N.eqb_spec label NOLABEL); auto. }
    assert (FS : first_some (fun c0 => if enters g c0 c then best g label lab' w c0 (pos + 1) else None) (v_out x) =
                 option_map (end_at (c :: w) pos) (hd_error (flat_map (runs g0 late (c :: w)) (outs g0 v)))).
    { rewrite Ox, hd_flat_map. apply first_some_map. intros u Hu.
      assert (Hu' : 1 <= u < length g0) by (eapply (fo_edge _ _ _ _ (bu_frag _ _ _ _ BU)); eauto).
      rewrite (IH c u lab' (pos + 1)%N Hu' HLab'). destruct (hd_error (runs g0 late (c :: w) u)) as [r|]; auto. simpl. f_equal. unfold end_at. simpl length. lia. }
    rewrite FS. unfold visit, late. destruct (exit_of (f_out f) v) eqn:EX.
    + fold late. rewrite firstn_all, skipn_all. destruct (flat_map (runs g0 late (c :: w)) (outs g0 v)) as [|r l]; [|auto].
      cbn [flat_map app hd_error option_map]. rewrite Mx. unfold lab'. rewrite Lx. destruct (N.eqb_spec label NOLABEL); [lia|]. rewrite N.eqb_refl. cbn [andb]. f_equal. unfold end_at. lia.
    + fold late. rewrite Mx. destruct (hd_error _); auto.
Qed.

Lemma best_root w pos : best g label NOLABEL w 0 pos = option_map (end_at w pos) (hd_error (flat_map (runs g0 late w) (f_in f))).
Proof.
  destruct (bu_root _ _ _ _ BU) as (x & Ex & _ & Mx & Lx & _ & Ox). destruct w as [|b w]; cbn [best]; rewrite Ex, Mx.
  - assert (R : forall l, flat_map (runs g0 late []) l = []) by (induction l; auto). rewrite R. auto.
  - rewrite Lx, N.eqb_refl. rewrite Ox, hd_flat_map.
    rewrite (first_some_map (fun a => hd_error (runs g0 late (b :: w) a)) _ (end_at (b :: w) pos)); [destruct (first_some _ _); auto|].
    intros u Hu. rewrite (best_runs w b u NOLABEL (pos + 1)%N); auto; [|apply (fo_in _ _ _ _ (bu_frag _ _ _ _ BU)); auto].
    destruct (hd_error _) as [r|]; auto. simpl. f_equal. unfold end_at. simpl length. lia.
Qed.

Definition exit_last (g : nfa) (f : frag) : Prop := forall v p, In (v, p) (f_out f) -> p = length (outs g v).

Lemma best_last w pos : exit_last g0 f -> best g label NOLABEL w 0 pos = option_map (end_at w pos) (hd_error (frag_ways g0 f w)).
Proof.
  intros EL. rewrite best_root. unfold frag_ways. rewrite (bu_skip _ _ _ _ BU). cbn [visit]. do 2 f_equal. apply flat_map_ext_in. intros v Hv.
  apply (runs_frame g0 g0 _ _ (fun v => 1 <= v < length g0)); [|apply (fo_in _ _ _ _ (bu_frag _ _ _ _ BU)); auto].
  intros u Hu. repeat split; auto; try (eapply (fo_edge _ _ _ _ (bu_frag _ _ _ _ BU)); eauto).
  unfold late. destruct (exit_of (f_out f) u) as [p|] eqn:E; auto. apply exit_of_some in E. apply EL in E. congruence.
Qed.

(** What code generation needs of the automaton, apart from its labels. *)
Lemma built_shape :
  (exists x, nth_error g 0 = Some x /\ v_trans x = None /\ v_match x = false /\ v_label x = NOLABEL /\ v_in x = [] /\ v_out x <> []) /\
  (forall v x, v <> 0 -> nth_error g v = Some x -> (exists t, v_trans x = Some t /\ trans_ok t) /\ (v_out x = [] -> v_match x = true) /\
     v_label x = (if v_match x then label else NOLABEL)) /\
  (forall v c, edge g v c -> c <> 0 /\ c < length g) /\ (forall v, v < length g -> reach g v).
Proof.
  destruct (bu_root _ _ _ _ BU) as (x & Ex & Tx & Mx & Lx & Ix & Ox). pose proof (bu_frag _ _ _ _ BU) as OK.
  split; [exists x; repeat split; auto; rewrite Ox; apply (fo_in1 _ _ _ _ OK)|]. split; [|split].
  - intros v y Hv Ey. assert (Hv' : 1 <= v < length g0).
    { rewrite <- (bu_len _ _ _ _ BU). split; [lia|]. apply nth_error_Some. congruence. }
    destruct (built_at v Hv') as (y' & Ey' & Oy & My & Ly & Ty & _). rewrite Ey in Ey'. injection Ey' as <-.
    split; auto. split.
    + intros E. rewrite My. rewrite Oy in E. apply (fo_end _ _ _ _ OK) in E; auto. destruct (exit_of (f_out f) v) eqn:EX; auto. apply exit_of_none in EX. tauto.
    + rewrite My, Ly. destruct (exit_of (f_out f) v); auto.
  - intros v c. unfold edge. rewrite (bu_len _ _ _ _ BU). destruct v as [|v].
    + unfold outs. rewrite Ex, Ox. intros H. apply (fo_in _ _ _ _ OK) in H. lia.
    + rewrite (bu_outs _ _ _ _ BU) by lia. intros H. pose proof (outs_in _ _ _ H). apply (fo_edge _ _ _ _ OK) in H; lia.
  - rewrite (bu_len _ _ _ _ BU). intros [|v] Hv; [constructor|].
    assert (F : from g0 (f_in f) (S v)) by (apply (fo_reach _ _ _ _ OK); lia).
    induction F as [u Hu|u c Hu IH Hc].
    + apply reach_step with 0; [constructor|]. unfold edge, outs. rewrite Ex, Ox. auto.
    + assert (Hu' : 1 <= u < length g0) by (eapply from_closed; [apply (fo_in _ _ _ _ OK)|apply (fo_edge _ _ _ _ OK)|auto]).
      apply reach_step with u; [apply IH; lia|]. unfold edge. rewrite (bu_outs _ _ _ _ BU) by lia. auto.
Qed.
End Built.
