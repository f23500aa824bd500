(** Theorems from parsed patterns to hits: lg_add_pattern for each pattern, lg_create_program with
    any DeterminizeDepth, then searching.  [ks] lists the patterns, each with its encoding, in the
    order of the calls; [rs] is what the calls return: the index of the keyword, or None. *)
From Coq Require Import Sorting.Permutation Sorting.Sorted.
From Verif Require Import VmSpec VmIdeal VmSim VmGeneric VmCalls VmCheck Thm_VmRun.
From Verif Require Import Base NfaModel VmModel VmRunnable VmSearch CodegenLayout CodegenModel CodegenSpec CodegenTotal CodegenRun Thm_Codegen ByteSetModel EncModel EncProofs Thm_Enc PatModel PatSpec
  Thm_Rewrite BuildModel BuildSpec BuildProofs BuildTree BuildEnc BuildTail Thm_Build OptModel OptSpec OptPrune OptMerge OptMergeLang OptMergeBest OptLive OptGuard OptZero OptPipe OptFinal.
Open Scope nat_scope.

(** * Lemmas *)

Lemma count_firstn rs : forall n, n < count rs -> exists j l, nth_error rs j = Some (Some l) /\ count (firstn j rs) = n.
Proof.
  unfold count. induction rs as [|[l|] rs IH]; intros n H; cbn [filter added length] in H; [lia| |].
  - destruct n as [|n]; [exists 0, l; auto|]. destruct (IH n) as (j & l' & E & C); [lia|]. exists (S j), l'. split; auto. cbn [firstn filter added length]. lia.
  - destruct (IH n H) as (j & l & E & C). exists (S j), l. split; auto.
Qed.

Lemma count_mono rs i j l : i < j -> nth_error rs i = Some (Some l) -> count (firstn i rs) < count (firstn j rs).
Proof.
  unfold count. revert i j. induction rs as [|o rs IH]; intros [|i] [|j] H E; try discriminate; try lia; cbn [firstn filter].
  - injection E as ->. cbn [added length]. lia.
  - destruct o; cbn [added length]; specialize (IH i j ltac:(lia) E); lia.
Qed.

Lemma count_le rs : count rs <= length rs.
Proof. unfold count. induction rs as [|[l|] rs IH]; simpl; lia. Qed.

Lemma add_all_app fuel : forall a b fsm label g rs g' rs', add_all fuel fsm label a = Ok (g, rs) -> add_all fuel g (label + N.of_nat (count rs)) b = Ok (g', rs') ->
  add_all fuel fsm label (a ++ b) = Ok (g', rs ++ rs').
Proof.
  induction a as [|[enc t] a IH]; intros b fsm label g rs g' rs' H1 H2; cbn [add_all app] in *.
  - injection H1 as <- <-. simpl in H2. rewrite N.add_0_r in H2. auto.
  - destruct (addPattern fuel enc fsm t label) as [g1| | |]; try discriminate.
    + destruct (add_all fuel g1 (label + 1) a) as [[g2 rs2]| | |] eqn:E; try discriminate. cbn [bind] in H1. injection H1 as <- <-.
      rewrite (IH b g1 (label + 1)%N g2 rs2 g' rs'); auto. rewrite <- H2. f_equal. unfold count. cbn [filter added length]. lia.
    + destruct (add_all fuel fsm label a) as [[g2 rs2]| | |] eqn:E; try discriminate. cbn [bind] in H1. injection H1 as <- <-.
      rewrite (IH b fsm label g2 rs2 g' rs'); auto.
Qed.

(** The label does not matter to what a built automaton prefers. *)
Lemma built_relabel g0 f l g l' g' : built g0 f l g -> built g0 f l' g' -> (l < NOLABEL)%N -> (l' < NOLABEL)%N ->
  forall w pos, best g l NOLABEL w 0 pos = best g' l' NOLABEL w 0 pos.
Proof.
  intros B B' HL HL'.
  assert (X : forall w v lab lab' pos, 1 <= v < length g0 -> best g l lab w v pos = best g' l' lab' w v pos).
  { induction w as [|b w IH]; intros v lab lab' pos Hv; cbn [best];
      destruct (built_at g0 f l g B v Hv) as (x & -> & Ox & Mx & Lx & _), (built_at g0 f l' g' B' v Hv) as (x' & -> & Ox' & Mx' & Lx' & _); rewrite Mx, Mx', Lx, Lx'.
    - destruct (exit_of (f_out f) v); [|auto]. destruct (N.eqb_spec l NOLABEL); [lia|]. destruct (N.eqb_spec l' NOLABEL); [lia|]. rewrite !N.eqb_refl. auto.
    - rewrite Ox, Ox'.
      assert (Y : forall la la', first_some (fun c => if enters g c b then best g l la w c (pos + 1) else None) (outs g0 v) =
        first_some (fun c => if enters g' c b then best g' l' la' w c (pos + 1) else None) (outs g0 v)).
      { intros la la'. assert (Hr : forall c, In c (outs g0 v) -> 1 <= c < length g0) by (intros c; apply (fo_edge _ _ _ _ (bu_frag _ _ _ _ B)); auto).
        clear Ox Ox'. induction (outs g0 v) as [|c r IHr]; auto. cbn [first_some]. assert (Hc : 1 <= c < length g0) by (apply Hr; left; auto).
        destruct (built_at g0 f l g B c Hc) as (_ & _ & _ & _ & _ & _ & ->), (built_at g0 f l' g' B' c Hc) as (_ & _ & _ & _ & _ & _ & ->).
        rewrite (IH c la la' (pos + 1)%N Hc). rewrite IHr by (intros c' Hc'; apply Hr; right; auto). reflexivity. }
      destruct (exit_of (f_out f) v).
      + destruct (N.eqb_spec l NOLABEL); [lia|]. destruct (N.eqb_spec l' NOLABEL); [lia|]. rewrite !N.eqb_refl. rewrite (Y l l'). auto.
      + rewrite (Y _ lab'). auto. }
  intros w pos. destruct (bu_root _ _ _ _ B) as (x & Ex & _ & Mx & Lx & _ & Ox), (bu_root _ _ _ _ B') as (x' & Ex' & _ & Mx' & Lx' & _ & Ox').
  destruct w as [|b w]; cbn [best]; rewrite Ex, Ex', Mx, Mx'; auto. rewrite Lx, Lx', Ox, Ox', N.eqb_refl.
  assert (Hr : forall c, In c (f_in f) -> 1 <= c < length g0) by (apply (fo_in _ _ _ _ (bu_frag _ _ _ _ B))).
  assert (Y : forall la la', first_some (fun c => if enters g c b then best g l la w c (pos + 1) else None) (f_in f) =
     first_some (fun c => if enters g' c b then best g' l' la' w c (pos + 1) else None) (f_in f)).
  { intros la la'. clear Ox Ox'. induction (f_in f) as [|c r IHr]; auto. cbn [first_some]. assert (Hc : 1 <= c < length g0) by (apply Hr; left; auto).
    destruct (built_at g0 f l g B c Hc) as (_ & _ & _ & _ & _ & _ & ->), (built_at g0 f l' g' B' c Hc) as (_ & _ & _ & _ & _ & _ & ->).
    rewrite (X w c la la' (pos + 1)%N Hc). rewrite IHr by (intros c' Hc'; apply Hr; right; auto). reflexivity. }
  rewrite (Y NOLABEL NOLABEL). auto.
Qed.

(** Deciding [distinct_branches] *)
Definition distinct_b (g : nfa) : bool :=
  forallb (fun h => (length (nodup Nat.eq_dec (outs g h)) =? length (outs g h)) &&
    forallb (fun c => forallb (fun c' => negb ((bts g c =? bts g c')%N && (lbl g c =? lbl g c')%N) || (c =? c')) (outs g h)) (outs g h)) (seq 0 (length g)).

Lemma nodup_length_le (l : list nat) : length (nodup Nat.eq_dec l) <= length l.
Proof. induction l as [|x l IH]; simpl; auto. destruct (in_dec _ _ _); simpl; lia. Qed.

Lemma nodup_same (l : list nat) : length (nodup Nat.eq_dec l) = length l -> NoDup l.
Proof.
  induction l as [|x l IH]; intros H; [constructor|]. cbn [nodup] in H. pose proof (nodup_length_le l). destruct (in_dec Nat.eq_dec x l) as [Hi|Hi]; simpl in H; [lia|]. constructor; auto.
Qed.

Lemma distinct_b_sound g : distinct_b g = true -> distinct_branches g.
Proof.
  unfold distinct_b. rewrite forallb_forall. intros H.
  assert (X : forall h, outs g h <> [] -> In h (seq 0 (length g))).
  { intros h Hh. apply in_seq. split; [lia|]. simpl. unfold outs in Hh. destruct (nth_error g h) eqn:E; [apply nth_error_Some; congruence|congruence]. }
  split.
  - intros h c c' Hc Hc' E1 E2. assert (Hh : In h (seq 0 (length g))) by (apply X; intros E; rewrite E in Hc; destruct Hc).
    specialize (H h Hh). apply andb_true_iff in H as (_ & H). rewrite forallb_forall in H. specialize (H c Hc). rewrite forallb_forall in H. specialize (H c' Hc').
    rewrite E1, E2, !N.eqb_refl in H. apply Nat.eqb_eq. exact H.
  - intros h. destruct (outs g h) as [|c r] eqn:E; [constructor|]. rewrite <- E. assert (Hh : In h (seq 0 (length g))) by (apply X; congruence).
    specialize (H h Hh). apply andb_true_iff in H as (H & _). apply Nat.eqb_eq in H. apply nodup_same. auto.
Qed.

(** If the root has two successors, [zero_ok] holds. *)
Lemma two_roots g : 2 <= length (nodup Nat.eq_dec (outs g 0)) -> zero_ok g.
Proof.
  intros H d c Ed. exfalso. pose proof (NoDup_nodup Nat.eq_dec (outs g 0)) as ND. assert (X : forall i, In i (nodup Nat.eq_dec (outs g 0)) -> i = d) by (intros i Hi; apply Ed; apply nodup_In in Hi; auto).
  destruct (nodup Nat.eq_dec (outs g 0)) as [|x [|y r]]; simpl in H; try lia. inversion ND; subst. apply H2. left. rewrite (X x), (X y); simpl; auto.
Qed.

Section Statements.
Variable sort : nat -> nat -> list (list bset) -> list (list bset).
Variable sort_len : list (list bset) -> list (list bset).
Hypothesis sort_perm : forall a b l, Permutation l (sort a b l).
Hypothesis sort_len_perm : forall l, Permutation l (sort_len l).
Hypothesis sort_len_sorted : forall l, StronglySorted (fun a b => length a <= length b) (sort_len l).
Notation fenc := (factory_enc sort sort_len).
Notation handed ks := (map (fun k => (fenc (fst k), Some (snd k))) ks).

(** What may be handed over, and how many *)
Definition keywords_ok (ks : list (encoder * pnode)) : Prop := (forall e t, In (e, t) ks -> enc_ok e /\ buildable t) /\ (N.of_nat (length ks) <= two24)%N.

(** A pattern from whose automaton no two edges lead from one state to states that look alike *)
Definition branches_distinct (e : encoder) (t : pnode) : Prop := exists l g, (l < NOLABEL)%N /\ build (fenc e) l (Some t) = Ok (Some g) /\ distinct_branches g.

Lemma added_all ks fuel : keywords_ok ks -> keywords_fuel sort sort_len ks <= fuel ->
  exists g rs, add_all fuel [v_new] 0 (handed ks) = Ok (g, rs) /\ length rs = length ks /\ fsm_inv g (fun l => (l < N.of_nat (count rs))%N) /\
    (forall j e t, nth_error ks j = Some (e, t) ->
       match nth_error rs j with
       | Some (Some l) => addable e t /\ l = N.of_nat (count (firstn j rs)) /\ represents g l e t /\
           (forall g0, build (fenc e) l (Some t) = Ok (Some g0) -> distinct_branches g0 -> forall w pos, best g l NOLABEL w 0 pos = best g0 l NOLABEL w 0 pos)
       | Some None => ~ addable e t
       | None => False
       end) /\
    (count rs = 0 -> g = [v_new]) /\ (count rs <> 0 -> outs g 0 <> []) /\ (one_byte_free ks \/ 2 <= count rs -> zero_ok g).
Proof.
  intros (HK & HN) HF. destruct (add_all_spec sort sort_len sort_perm sort_len_perm sort_len_sorted ks [v_new] 0%N fuel HK) as (g & rs & E & L & I & _ & R & C0 & NE & Z1 & _ & Z2).
  - apply inv_ext with (2 := empty_inv). intros l [].
  - unfold NOLABEL. unfold two24 in HN. lia.
  - intros e t i Hi Hl. rewrite N.add_0_l. eapply Nat.le_trans; [eapply keywords_fuel_ok; eauto|auto].
  - exists g, rs. split; auto. split; auto. split; [apply inv_ext with (2 := I); intros l; simpl; lia|]. split; [|split; auto; split; auto].
    + intros j e t Ej. specialize (R j e t Ej). destruct (nth_error rs j) as [[l|]|]; auto.
    + intros [H|H]; [apply Z1; auto; apply new_zero|auto].
Qed.

(** * Adding patterns *)

(** C32, C33.  Each pattern is accepted exactly if it cannot match the empty string and each of its
    characters and classes can be encoded; indices are given in order; and of the automaton that
    results each keyword accepts only texts of its pattern, and some beginning of each of them,
    whatever the other patterns are. *)
Theorem keywords_added ks fuel : keywords_ok ks -> keywords_fuel sort sort_len ks <= fuel ->
  exists g rs, add_all fuel [v_new] 0 (handed ks) = Ok (g, rs) /\ length rs = length ks /\
    forall j e t, nth_error ks j = Some (e, t) ->
      (nth_error rs j = Some None <-> ~ addable e t) /\
      (addable e t -> exists l, nth_error rs j = Some (Some l) /\ l = N.of_nat (count (firstn j rs)) /\ represents g l e t).
Proof.
  intros HK HF. destruct (added_all ks fuel HK HF) as (g & rs & E & L & _ & R & _). exists g, rs. split; auto. split; auto. intros j e t Ej. specialize (R j e t Ej).
  destruct (nth_error rs j) as [[l|]|] eqn:Er; [| |contradiction].
  - destruct R as (A & El & RP & _). split; [split; [discriminate|tauto]|]. intros _. eauto.
  - split; [tauto|]. tauto.
Qed.

(** * Creating the program *)

(** C43.  lg_create_program: with no keyword it throws.  With some, the graph passes end whatever
    DeterminizeDepth ([depth]) is.  Code generation then succeeds within the size limits of the program
    format ([fits32]), if no state leads to the only successor of the root and nowhere else ([zero_ok]),
    and if nothing is determinized, or to a depth of at least 2^24, or no edge was repeated.  With depth
    0, [zero_ok] holds if two patterns were added or no pattern matches a single byte. *)
Theorem program_created ks fuel det depth g rs : keywords_ok ks -> keywords_fuel sort sort_len ks <= fuel -> add_all fuel [v_new] 0 (handed ks) = Ok (g, rs) ->
  ((forall j, nth_error rs j <> None -> nth_error rs j = Some None) -> forall fuelF, finalizeGraph fuelF det depth g = Throw) /\
  ((exists j l, nth_error rs j = Some (Some l)) -> exists gf fuelF, (forall F, fuelF <= F -> finalizeGraph F det depth g = Ok gf) /\
     (depth = 0%N -> length gf = length g /\ (one_byte_free ks \/ 2 <= count rs -> zero_ok gf)) /\
     (zero_ok gf -> fits32 gf -> (depth = 0 \/ two24 <= depth)%N \/ no_parallel gf ->
      forall fuel1 fuel2, length gf <= fuel1 -> (length gf + 2) * length gf < fuel2 -> exists P, createProgram fuel1 fuel2 gf = Ok P)).
Proof.
  intros HK HF ADD. destruct (added_all ks fuel HK HF) as (g' & rs' & E & L & I & R & C0 & NE & Z). rewrite ADD in E. injection E as <- <-. split.
  - intros H. assert (C : count rs = 0). { destruct (count rs) as [|n] eqn:Ec; auto. destruct (count_firstn rs n) as (j & l & Ej & _); [lia|]. rewrite (H j) in Ej; congruence. }
    rewrite (C0 C). reflexivity.
  - intros (j & l & Ej). assert (C : count rs <> 0).
    { assert (j < length rs) by (apply nth_error_Some; congruence). pose proof (count_mono rs j (length rs) l H Ej) as X. rewrite firstn_all in X. lia. }
    assert (CL : (N.of_nat (count rs) <= two24)%N) by (pose proof (count_le rs); destruct HK as (_ & X); rewrite <- L in X; lia).
    assert (UL : (N.of_nat (count rs) <= UNLABELABLE)%N) by (unfold UNLABELABLE; unfold two24 in CL; lia).
    destruct (finalize_any g (count rs) det depth I UL (NE C)) as (gf & K & F0 & EF & G0 & GD & SK & CP). exists gf, F0. split; auto. split.
    + intros ->. destruct (finalize_spec g (count rs) (Nat.max F0 (guard_fuel g)) det I UL (NE C) (Nat.le_max_r _ _)) as (gf' & K' & EF' & _ & _ & ZZ & LG & _).
      rewrite EF in EF' by lia. injection EF' as <-. auto.
    + intros ZG F32 HP fuel1 fuel2 H1 H2. apply (compile_succeeds gf K fuel1 fuel2 (GD ZG) F32); [|lia|auto].
      pose proof (fits32_length gf F32) as X. assert (LL : (N.of_nat (length gf) < two24)%N) by (unfold two24; unfold two32 in X; lia).
      apply CP; auto. destruct HP as [[HP|HP]|HP]; auto. left. right. right. lia.
Qed.

(** * Searching *)

(** The program [P] was created from the patterns [ks], with some DeterminizeDepth, and adding them
    returned [rs]. *)
Definition created (ks : list (encoder * pnode)) (rs : list (option N)) (P : program) : Prop :=
  exists fuel fuelF fuel1 fuel2 det depth g gf, keywords_ok ks /\ keywords_fuel sort sort_len ks <= fuel /\ add_all fuel [v_new] 0 (handed ks) = Ok (g, rs) /\
    finalizeGraph fuelF det depth g = Ok gf /\ zero_ok gf /\ fits32 gf /\ createProgram fuel1 fuel2 gf = Ok P.

Notation stream_calls off cs := (chunk_calls off cs ++ [CClose true]).

Lemma created_facts ks rs P : created ks rs P -> exists gf K fuel1 fuel2, good gf K /\ fits32 gf /\ createProgram fuel1 fuel2 gf = Ok P /\ length rs = length ks /\
  (forall l w, matches gf l w -> exists j, nth_error rs j = Some (Some l)) /\
  (forall j e t l, nth_error ks j = Some (e, t) -> nth_error rs j = Some (Some l) -> enc_ok e /\ buildable t /\ addable e t /\ represents gf l e t /\ (l < NOLABEL)%N /\
     (forall g0, build (fenc e) l (Some t) = Ok (Some g0) -> distinct_branches g0 -> forall w pos, best gf l NOLABEL w 0 pos = best g0 l NOLABEL w 0 pos)).
Proof.
  intros (fuel & fuelF & fuel1 & fuel2 & det & depth & g & gf & HK & HF & ADD & FIN & HZ & F32 & COMP).
  destruct (added_all ks fuel HK HF) as (g' & rs' & E & L & I & R & C0 & NE & Z). rewrite ADD in E. injection E as <- <-.
  assert (CL : (N.of_nat (count rs) <= two24)%N) by (pose proof (count_le rs); destruct HK as (_ & X); rewrite <- L in X; lia).
  assert (C : count rs <> 0) by (intros X; rewrite (C0 X) in FIN; discriminate).
  destruct (finalize_any g (count rs) det depth I) as (gf' & K & F0 & EF & G0 & GD & SK & CP); auto; [unfold UNLABELABLE; unfold two24 in CL; lia|].
  specialize (EF (Nat.max F0 fuelF) (Nat.le_max_l _ _)). rewrite (finalize_mono fuelF (Nat.max F0 fuelF) det depth g gf (Nat.le_max_r _ _) FIN) in EF. injection EF as <-. exists gf, K, fuel1, fuel2. split; auto. split; auto. split; auto. split; auto. split.
  - intros l w H. apply (SK l) in H. assert (Hl : (l < N.of_nat (count rs))%N).
    { assert (X : forall v lab w, accepts g l lab w v -> lab <> l -> lbl g v = l \/ exists v', lbl g v' = l).
      { intros v lab u A. induction A as [lab v x Ex Mx El|lab v x b u c Ex Hc En A IH]; intros NL.
        - left. unfold newlab in El. unfold lbl. rewrite Ex. destruct (N.eqb_spec (v_label x) NOLABEL); congruence.
        - destruct (N.eq_dec (v_label x) l) as [Q|Q]; [left; unfold lbl; rewrite Ex; auto|]. right. destruct IH; eauto. unfold newlab. destruct (N.eqb_spec (v_label x) NOLABEL); auto. }
      destruct (N.eq_dec NOLABEL l) as [Q|Q].
      - exfalso. assert (Y : forall v lab u, accepts g l lab u v -> False); [|eapply Y; eauto]. intros v lab u A. induction A as [lab v x Ex Mx El|]; auto.
        pose proof (fk_label _ (fi_ok _ _ I) v x Ex) as LB. unfold newlab in El. destruct (N.eqb_spec (v_label x) NOLABEL) as [T|T]; [apply LB in Mx; congruence|congruence].
      - destruct (X 0 NOLABEL w H Q) as [Y|(v & Y)]; [pose proof (fi_labels _ _ I 0)|pose proof (fi_labels _ _ I v)]; rewrite Y in *; intuition congruence. }
    destruct (count_firstn rs (N.to_nat l)) as (j & l' & Ej & Cj); [lia|]. exists j. rewrite Ej. do 2 f_equal.
    assert (JL : j < length ks) by (rewrite <- L; apply nth_error_Some; congruence). destruct (nth_error ks j) as [[e t]|] eqn:Ek; [|apply nth_error_None in Ek; lia].
    specialize (R j e t Ek). rewrite Ej in R. destruct R as (_ & El & _). lia.
  - intros j e t l Ek Ej. specialize (R j e t Ek). rewrite Ej in R. destruct R as (AD & El & RP & BE). destruct HK as (HK1 & HK2). destruct (HK1 e t) as (OK & B); [eapply nth_error_In; eauto|].
    split; auto. split; auto. split; auto. split; [eapply same_represents; eauto|]. split.
    + assert (Hj : j < length rs) by (apply nth_error_Some; congruence). pose proof (count_mono rs j (length rs) l Hj Ej) as X. rewrite firstn_all in X. unfold NOLABEL. unfold two24 in CL. lia.
    + intros g0 E0 DB w pos. rewrite <- (BE g0 E0 DB). apply (SK l).
Qed.

Lemma build_again e t l l' g : enc_ok e -> buildable t -> (l < NOLABEL)%N -> (l' < NOLABEL)%N -> build (fenc e) l (Some t) = Ok (Some g) ->
  exists g', build (fenc e) l' (Some t) = Ok (Some g') /\ (distinct_branches g -> distinct_branches g') /\ forall w pos, best g l NOLABEL w 0 pos = best g' l' NOLABEL w 0 pos.
Proof.
  intros OK B HL HL' E. pose proof (build_outcome sort sort_len sort_perm sort_len_perm sort_len_sorted e OK t l B) as O. rewrite E in O.
  pose proof (build_outcome sort sort_len sort_perm sort_len_perm sort_len_sorted e OK t l' B) as O'.
  pose proof (build_spec (fenc e) l t _ _ (tree_builds sort sort_len sort_perm sort_len_perm sort_len_sorted e OK t B)) as BS. rewrite E in BS. destruct BS as (_ & _ & gb & f & EB & BU & _).
  pose proof (build_spec (fenc e) l' t _ _ (tree_builds sort sort_len sort_perm sort_len_perm sort_len_sorted e OK t B)) as BS'.
  destruct (build (fenc e) l' (Some t)) as [[g'|]| | |]; try tauto.
  2: { exfalso. destruct O' as (a & Ha & Hw). destruct O as (O & _). destruct (O a Ha) as (w & W). eapply Hw; eauto. }
  destruct BS' as (_ & _ & gb' & f' & EB' & BU' & _). rewrite EB in EB'. injection EB' as <- <-. exists g'. split; auto.
  split; [|apply (built_relabel gb f l g l' g' BU BU' HL HL')].
  assert (OE : forall v, outs g' v = outs g v).
  { intros [|v]; [|rewrite (bu_outs _ _ _ _ BU'), (bu_outs _ _ _ _ BU) by lia; auto].
    destruct (bu_root _ _ _ _ BU) as (x & Ex & _ & _ & _ & _ & Ox), (bu_root _ _ _ _ BU') as (x' & Ex' & _ & _ & _ & _ & Ox'). unfold outs. rewrite Ex, Ex', Ox, Ox'. auto. }
  intros (D1 & D2). split; [|intros v; rewrite OE; apply D2]. intros h c c'. rewrite OE. intros Hc Hc' Eb El.
  assert (RG : forall c, In c (outs g h) -> 1 <= c < length gb).
  { intros d Hd. rewrite <- (bu_len _ _ _ _ BU). destruct (built_fsm gb f l g BU HL) as (F0 & _). destruct (edge_bounds g h d F0 Hd) as (D0 & DL & _). lia. }
  assert (BE : forall c, 1 <= c < length gb -> bts g' c = bts g c /\ lbl g' c = (if mat g c then l' else NOLABEL) /\ lbl g c = (if mat g c then l else NOLABEL)).
  { intros d Hd. destruct (bu_attr _ _ _ _ BU d Hd) as (tr & _ & A0 & A), (bu_attr _ _ _ _ BU' d Hd) as (tr' & _ & A0' & A').
    rewrite A0 in A0'. injection A0' as <-. unfold attrs, bts, lbl, mat in *. destruct (nth_error g d) as [x|]; [|discriminate]. destruct (nth_error g' d) as [x'|]; [|discriminate].
    simpl in A, A'. unfold attr in *. injection A as -> -> ->. injection A' as T' _ L'. rewrite T', L'. split; auto. destruct (exit_of (f_out f) d); auto. }
  destruct (BE c (RG c Hc)) as (B1 & L1 & K1), (BE c' (RG c' Hc')) as (B2 & L2 & K2).
  apply (D1 h c c' Hc Hc'); [congruence|]. rewrite K1, K2. rewrite L1, L2 in El. destruct (mat g c), (mat g c'); auto; lia.
Qed.

Lemma created_best ks rs P : created ks rs P -> exists gf K fuel1 fuel2, good gf K /\ fits32 gf /\ createProgram fuel1 fuel2 gf = Ok P /\
  forall j e t l, nth_error ks j = Some (e, t) -> nth_error rs j = Some (Some l) -> branches_distinct e t -> forall l' g', (l' < NOLABEL)%N -> build (fenc e) l' (Some t) = Ok (Some g') ->
    forall w pos, best gf l NOLABEL w 0 pos = best g' l' NOLABEL w 0 pos.
Proof.
  intros C. destruct (created_facts ks rs P C) as (gf & K & fuel1 & fuel2 & G & F & CP & LE & LB & KW). exists gf, K, fuel1, fuel2. split; auto. split; auto. split; auto.
  intros j e t l Ek Ej (l1 & g1 & HL1 & E1 & D1) l' g' HL' E' w pos. destruct (KW j e t l Ek Ej) as (OK & B & AD & _ & HL & BE).
  destruct (build_again e t l1 l g1 OK B HL1 HL E1) as (g0 & E0 & D0 & _). rewrite (BE g0 E0 (D0 D1)).
  destruct (build_again e t l l' g0 OK B HL HL' E0) as (g2 & E2 & _ & BB). rewrite E' in E2. injection E2 as <-. apply BB.
Qed.

Section Searching.
Variables (ks : list (encoder * pnode)) (rs : list (option N)) (P : program) (fuel : nat).
Hypothesis C : created ks rs P.
Hypothesis HV : 2 * length (p_words P) <= fuel.

(** C29.  Searching never reads outside the program and its tables, and each call returns. *)
Theorem searched_safe cs rest off : (off + N.of_nat (length (concat cs ++ concat rest)) < two64)%N -> bytes (concat cs) -> bytes (concat rest) ->
  exists hits vs, session fuel P (chunk_calls off cs ++ resolve_calls (off + N.of_nat (length (concat cs))) rest ++ [CClose true]) = Ok (hits, vs).
Proof.
  destruct (created_facts ks rs P C) as (gf & K & fuel1 & fuel2 & G & F32 & CP & _). apply (compiled_search_safe gf K fuel1 fuel2 P G F32 CP fuel HV).
Qed.

(** C03.  The hits do not depend on how the stream is divided into buffers. *)
Theorem searched_chunking_invariant cs1 cs2 off hits1 vs1 hits2 vs2 : concat cs1 = concat cs2 -> (off + N.of_nat (length (concat cs1)) < two64)%N -> bytes (concat cs1) ->
  session fuel P (stream_calls off cs1) = Ok (hits1, vs1) -> session fuel P (stream_calls off cs2) = Ok (hits2, vs2) ->
  forall l, hits_of l hits1 = hits_of l hits2.
Proof.
  destruct (created_facts ks rs P C) as (gf & K & fuel1 & fuel2 & G & F32 & CP & _). apply (compiled_chunking_invariant gf K fuel1 fuel2 P G F32 CP fuel HV).
Qed.

(** C04. *)
Theorem searched_returned_offset cs c off h0 vs r more rest hits1 vs1 hits2 vs2 :
  let all := concat (cs ++ [c]) ++ concat more ++ concat rest in
  (off + N.of_nat (length all) < two64)%N -> bytes all ->
  session fuel P (chunk_calls off (cs ++ [c])) = Ok (h0, vs ++ [r]) ->
  session fuel P (stream_calls off (cs ++ [c])) = Ok (hits1, vs1) ->
  session fuel P (chunk_calls off ((cs ++ [c]) ++ more) ++ resolve_calls (off + N.of_nat (length (concat ((cs ++ [c]) ++ more)))) rest ++ [CClose true]) = Ok (hits2, vs2) ->
  (r <= off + N.of_nat (length (concat (cs ++ [c]))))%N /\
  forall l, filter (fun x => (fst x <? r)%N) (hits_of l hits2) = filter (fun x => (fst x <? r)%N) (hits_of l hits1).
Proof.
  destruct (created_facts ks rs P C) as (gf & K & fuel1 & fuel2 & G & F32 & CP & _). apply (compiled_returned_offset gf K fuel1 fuel2 P G F32 CP fuel HV).
Qed.

(** C09.  The filter makes no difference to the hits. *)
Theorem searched_filter_irrelevant cs off hits1 vs1 hits2 vs2 : (off + N.of_nat (length (concat cs)) < two64)%N -> bytes (concat cs) ->
  session fuel P (stream_calls off cs) = Ok (hits1, vs1) ->
  session fuel {| p_words := p_words P; p_maxLabel := p_maxLabel P; p_maxCheck := p_maxCheck P; p_filterOff := 0; p_filter := all_pass |} (stream_calls off cs) = Ok (hits2, vs2) ->
  forall l, hits_of l hits1 = hits_of l hits2.
Proof.
  destruct (created_facts ks rs P C) as (gf & K & fuel1 & fuel2 & G & F32 & CP & _). apply (compiled_filter_irrelevant gf K fuel1 fuel2 P G F32 CP fuel HV).
Qed.

(** C02, C10.  Every hit is a non-empty part of the stream and a text of the pattern that was added as
    the keyword of the hit. *)
Theorem searched_no_false_hits cs off hits vs h : (off + N.of_nat (length (concat cs)) < two64)%N -> bytes (concat cs) ->
  session fuel P (stream_calls off cs) = Ok (hits, vs) -> In h hits ->
  exists j e t, nth_error ks j = Some (e, t) /\ nth_error rs j = Some (Some (h_label h)) /\
    (off <= h_start h < h_end h)%N /\ (h_end h <= off + N.of_nat (length (concat cs)))%N /\
    PatSpec.lang (enc_atom e) t (slice (concat cs) off (h_start h) (h_end h)).
Proof.
  intros Ho Hb E Hh. destruct (created_facts ks rs P C) as (gf & K & fuel1 & fuel2 & G & F32 & CP & LE & LB & KW).
  pose proof (compiled_no_false_hits gf K fuel1 fuel2 P G F32 CP fuel HV cs off hits vs h Ho Hb E Hh) as M.
  pose proof (compiled_hits_well_formed gf K fuel1 fuel2 P G F32 CP fuel HV cs off hits vs Ho Hb E) as W. rewrite Forall_forall in W. specialize (W h Hh).
  destruct (LB _ _ M) as (j & Ej).
  assert (JL : j < length ks) by (rewrite <- LE; apply nth_error_Some; congruence). destruct (nth_error ks j) as [[e t]|] eqn:Ek; [|apply nth_error_None in Ek; lia].
  exists j, e, t. split; auto. split; auto. destruct W as (W1 & W2 & W3 & _). split; auto. split; auto. apply (KW j e t _ Ek Ej). auto.
Qed.

(** C11.  Where the stream contains a text of the pattern, some hit of the keyword covers its first
    byte. *)
Theorem searched_no_missed_match cs off hits vs j e t l s x : (off + N.of_nat (length (concat cs)) < two64)%N -> bytes (concat cs) ->
  session fuel P (stream_calls off cs) = Ok (hits, vs) -> nth_error ks j = Some (e, t) -> nth_error rs j = Some (Some l) ->
  (off <= s < x)%N -> (x <= off + N.of_nat (length (concat cs)))%N -> PatSpec.lang (enc_atom e) t (slice (concat cs) off s x) ->
  exists h, In h hits /\ h_label h = l /\ (h_start h <= s < h_end h)%N.
Proof.
  intros Ho Hb E Ek Ej Hs Hx HL. destruct (created_facts ks rs P C) as (gf & K & fuel1 & fuel2 & G & F32 & CP & LE & LB & KW). destruct (KW j e t l Ek Ej) as (_ & _ & _ & (_ & R) & _).
  destruct (R _ HL) as (k & Hk & M). assert (LS : length (slice (concat cs) off s x) <= N.to_nat (x - s)) by (unfold slice; rewrite firstn_length; lia).
  assert (K0 : k <> 0).
  { intros ->. simpl in M. inversion M as [? ? y Ey My|]; subst. destruct (gd_root _ _ G) as (z & Ez & _ & Mz & _). rewrite Ez in Ey. injection Ey as <-. congruence. }
  destruct (compiled_no_missed_match gf K fuel1 fuel2 P G F32 CP fuel HV cs off hits vs l s (s + N.of_nat k)%N) as (h & H1 & H2 & H3 & H4); auto; try lia.
  - unfold slice in *. replace (N.to_nat (s + N.of_nat k - s)) with k by lia. rewrite firstn_firstn in M. rewrite Nat.min_l in M by lia. auto.
  - exists h. auto.
Qed.

(** C42.  The hits of a keyword: from left to right, each at the least offset at which a text of the
    pattern starts and which is not before the end of the previous hit.  Which of the texts starting
    there is reported is stated in [searched_hits_chosen_partial]. *)
Theorem searched_hits_leftmost cs off hits vs j e t l : (off + N.of_nat (length (concat cs)) < two64)%N -> bytes (concat cs) ->
  session fuel P (stream_calls off cs) = Ok (hits, vs) -> nth_error ks j = Some (e, t) -> nth_error rs j = Some (Some l) ->
  let stop := (off + N.of_nat (length (concat cs)))%N in
  exists M, leftmost M stop off (hits_of l hits) /\
    (forall s x, (off <= s)%N -> In x (M s) -> (s < x <= stop)%N /\ PatSpec.lang (enc_atom e) t (slice (concat cs) off s x)) /\
    (forall s x, (off <= s < x)%N -> (x <= stop)%N -> PatSpec.lang (enc_atom e) t (slice (concat cs) off s x) -> M s <> []).
Proof.
  intros Ho Hb E Ek Ej stop. destruct (created_facts ks rs P C) as (gf & K & fuel1 & fuel2 & G & F32 & CP & LE & LB & KW). destruct (KW j e t l Ek Ej) as (_ & _ & _ & (R1 & R2) & _).
  exists (fun s => opt_list (preferred gf l (concat cs) off s)).
  split; [apply (compiled_hits_leftmost gf K fuel1 fuel2 P G F32 CP fuel HV cs off hits vs l Ho Hb E)|]. split.
  - intros s x Hs Hx. unfold preferred in Hx. destruct (best gf l NOLABEL (skipn (N.to_nat (s - off)) (concat cs)) 0 s) as [y|] eqn:Eb; [|destruct Hx].
    destruct Hx as [->|[]]. assert (Hp : (s < x)%N) by (eapply best_pos; eauto). apply best_accepts in Eb as (k & Ex & Hk & A).
    rewrite skipn_length in Hk. split; [unfold stop; lia|]. apply R1. unfold matches, slice. replace (N.to_nat (x - s)) with k by lia. auto.
  - intros s x Hs Hx HL. destruct (R2 _ HL) as (k & Hk & M). unfold preferred, slice in *. rewrite firstn_firstn in M.
    pose proof (Thm_Codegen.accepts_best gf l (skipn (N.to_nat (s - off)) (concat cs)) _ NOLABEL 0 s M) as X.
    destruct (best gf l NOLABEL (skipn (N.to_nat (s - off)) (concat cs)) 0 s); [discriminate|]. exfalso. apply X; auto. eexists. symmetry. apply firstn_skipn.
Qed.

(** C42.  Which text is reported: the one a backtracking matcher chooses, if no two edges of the
    pattern's automaton lead from one state to states that look alike (those are merged, which can
    change the order; [merging_choice_refuted]), and with the conditions of automaton_choice_partial
    (Thm_Build.v). *)
Theorem searched_hits_chosen_partial am cs off hits vs j e t l : (off + N.of_nat (length (concat cs)) < two64)%N -> bytes (concat cs) ->
  session fuel P (stream_calls off cs) = Ok (hits, vs) -> nth_error ks j = Some (e, t) -> nth_error rs j = Some (Some l) ->
  branches_distinct e t -> leaves_of e am t -> (forall a, In a (atoms t) -> prefix_free e a) -> firm_loops t -> tail_ok t ->
  leftmost (fun s => let w := skipn (N.to_nat (s - off)) (concat cs) in
                     map (fun r => (s + N.of_nat (length w) - N.of_nat (length r))%N) (opt_list (chosen am t w)))
           (off + N.of_nat (length (concat cs)))%N off (hits_of l hits).
Proof.
  intros Ho Hb E Ek Ej D LO PF FL TO. destruct (created_facts ks rs P C) as (gf0 & ? & ? & ? & _ & _ & _ & _ & _ & KW). destruct (KW j e t l Ek Ej) as (OK & B & _).
  destruct (created_best ks rs P C) as (gf & K & fuel1 & fuel2 & G & F32 & CP & BE). destruct D as (l' & g' & HL' & E' & D). 
  pose proof (compiled_hits_leftmost gf K fuel1 fuel2 P G F32 CP fuel HV cs off hits vs l Ho Hb E) as LM. eapply leftmost_hd; [|exact LM].
  intros s. cbn beta. unfold preferred. rewrite (BE j e t l Ek Ej (ex_intro _ l' (ex_intro _ g' (conj HL' (conj E' D)))) l' g' HL' E').
  rewrite (automaton_choice_partial sort sort_len sort_perm sort_len_perm sort_len_sorted e OK am t l' g' B HL' LO PF FL TO E'). destruct (chosen am t _); auto.
Qed.
End Searching.

(** C12.  A keyword's hits do not depend on the other keywords, if no two edges of its pattern's
    automaton lead from one state to states that look alike. *)
Theorem keyword_independence_partial ks1 rs1 P1 ks2 rs2 P2 fuel cs off hits1 vs1 hits2 vs2 j1 j2 e t l1 l2 :
  created ks1 rs1 P1 -> created ks2 rs2 P2 -> 2 * length (p_words P1) <= fuel -> 2 * length (p_words P2) <= fuel ->
  nth_error ks1 j1 = Some (e, t) -> nth_error ks2 j2 = Some (e, t) -> nth_error rs1 j1 = Some (Some l1) -> nth_error rs2 j2 = Some (Some l2) -> branches_distinct e t ->
  (off + N.of_nat (length (concat cs)) < two64)%N -> bytes (concat cs) ->
  session fuel P1 (stream_calls off cs) = Ok (hits1, vs1) -> session fuel P2 (stream_calls off cs) = Ok (hits2, vs2) ->
  hits_of l1 hits1 = hits_of l2 hits2.
Proof.
  intros C1 C2 HV1 HV2 K1 K2 R1 R2 D Ho Hb E1 E2.
  destruct (created_best ks1 rs1 P1 C1) as (gf1 & Ka & f1 & f2 & G1 & F1 & CP1 & BE1). destruct (created_best ks2 rs2 P2 C2) as (gf2 & Kb & f3 & f4 & G2 & F2 & CP2 & BE2).
  pose proof (compiled_hits_leftmost gf1 Ka f1 f2 P1 G1 F1 CP1 fuel HV1 cs off hits1 vs1 l1 Ho Hb E1) as L1.
  pose proof (compiled_hits_leftmost gf2 Kb f3 f4 P2 G2 F2 CP2 fuel HV2 cs off hits2 vs2 l2 Ho Hb E2) as L2.
  eapply leftmost_unique; [exact L1|]. eapply leftmost_hd; [|exact L2]. intros s. cbn beta. unfold preferred. destruct D as (l' & g' & HL' & E' & D).
  assert (BD : branches_distinct e t) by (exists l', g'; auto).
  rewrite (BE1 j1 e t l1 K1 R1 BD l' g' HL' E'), (BE2 j2 e t l2 K2 R2 BD l' g' HL' E'). auto.
Qed.

(** C12.  Whatever the pattern: with other keywords or without, the keyword's first hit starts at the
    same offset (or there is none). *)
Theorem keyword_first_hit_partial ks1 rs1 P1 ks2 rs2 P2 fuel cs off hits1 vs1 hits2 vs2 j1 j2 e t l1 l2 :
  created ks1 rs1 P1 -> created ks2 rs2 P2 -> 2 * length (p_words P1) <= fuel -> 2 * length (p_words P2) <= fuel ->
  nth_error ks1 j1 = Some (e, t) -> nth_error ks2 j2 = Some (e, t) -> nth_error rs1 j1 = Some (Some l1) -> nth_error rs2 j2 = Some (Some l2) ->
  (off + N.of_nat (length (concat cs)) < two64)%N -> bytes (concat cs) ->
  session fuel P1 (stream_calls off cs) = Ok (hits1, vs1) -> session fuel P2 (stream_calls off cs) = Ok (hits2, vs2) ->
  option_map fst (hd_error (hits_of l1 hits1)) = option_map fst (hd_error (hits_of l2 hits2)).
Proof.
  intros C1 C2 HV1 HV2 K1 K2 R1 R2 Ho Hb E1 E2.
  destruct (searched_hits_leftmost ks1 rs1 P1 fuel C1 HV1 cs off hits1 vs1 j1 e t l1 Ho Hb E1 K1 R1) as (M1 & L1 & A1 & B1).
  destruct (searched_hits_leftmost ks2 rs2 P2 fuel C2 HV2 cs off hits2 vs2 j2 e t l2 Ho Hb E2 K2 R2) as (M2 & L2 & A2 & B2).
  set (stop := (off + N.of_nat (length (concat cs)))%N) in *.
  assert (X : forall M M' : N -> list N, (forall s x, (off <= s)%N -> In x (M s) -> (s < x <= stop)%N /\ PatSpec.lang (enc_atom e) t (slice (concat cs) off s x)) ->
    (forall s x, (off <= s < x)%N -> (x <= stop)%N -> PatSpec.lang (enc_atom e) t (slice (concat cs) off s x) -> M' s <> []) -> forall s, (off <= s)%N -> M' s = [] -> M s = []).
  { intros M M' A B s Hs N. destruct (M s) as [|x r] eqn:Em; auto. exfalso. destruct (A s x Hs) as (X1 & X2); [rewrite Em; left; auto|]. apply (B s x); auto; lia. }
  pose proof (X M1 M2 A1 B2) as X12. pose proof (X M2 M1 A2 B1) as X21.
  inversion L1 as [m N1|m s1 x1 r1 Q1 Q2 Q3 Q4 Q5]; inversion L2 as [m' N2|m' s2 x2 r2 T1 T2 T3 T4 T5]; subst; cbn [hd_error option_map fst]; auto.
  - exfalso. specialize (N1 s2 T1 T2). apply X21 in N1; auto. rewrite N1 in T4. discriminate.
  - exfalso. specialize (N2 s1 Q1 Q2). apply X12 in N2; auto. rewrite N2 in Q4. discriminate.
  - f_equal. destruct (N.lt_trichotomy s1 s2) as [H|[H|H]]; auto; exfalso.
    + specialize (T3 s1 Q1 H). apply X12 in T3; auto. rewrite T3 in Q4. discriminate.
    + specialize (Q3 s2 T1 H). apply X21 in Q3; auto. rewrite Q3 in T4. discriminate.
Qed.

(** C34, C43.  Whatever DeterminizeDepth is, each keyword has the same hits, if for both depths no state
    leads to the only successor of the root and nowhere else ([determinized_hits_refuted]). *)
Theorem depth_irrelevant_partial ks fuelA g rs det1 det2 depth1 depth2 F1 F2 gf1 gf2 fa fb fc fd P1 P2 fuel cs off hits1 vs1 hits2 vs2 :
  keywords_ok ks -> keywords_fuel sort sort_len ks <= fuelA -> add_all fuelA [v_new] 0 (handed ks) = Ok (g, rs) ->
  finalizeGraph F1 det1 depth1 g = Ok gf1 -> zero_ok gf1 -> fits32 gf1 -> createProgram fa fb gf1 = Ok P1 -> 2 * length (p_words P1) <= fuel ->
  finalizeGraph F2 det2 depth2 g = Ok gf2 -> zero_ok gf2 -> fits32 gf2 -> createProgram fc fd gf2 = Ok P2 -> 2 * length (p_words P2) <= fuel ->
  (off + N.of_nat (length (concat cs)) < two64)%N -> bytes (concat cs) ->
  session fuel P1 (stream_calls off cs) = Ok (hits1, vs1) -> session fuel P2 (stream_calls off cs) = Ok (hits2, vs2) ->
  forall l, hits_of l hits1 = hits_of l hits2.
Proof.
  intros HK HF ADD FN1 Z1 S1 CP1 HV1 FN2 Z2 S2 CP2 HV2 Ho Hb E1 E2 l.
  destruct (added_all ks fuelA HK HF) as (g' & rs' & E & L & I & R & C0 & NE & _). rewrite ADD in E. injection E as <- <-.
  assert (CL : (N.of_nat (count rs) <= UNLABELABLE)%N) by (pose proof (count_le rs); destruct HK as (_ & X); rewrite <- L in X; unfold UNLABELABLE; unfold two24 in X; lia).
  assert (C : count rs <> 0) by (intros X; rewrite (C0 X) in FN1; discriminate).
  assert (X : forall F det depth gf, finalizeGraph F det depth g = Ok gf -> zero_ok gf -> exists K, good gf K /\ same_keyword g gf l).
  { intros F det depth gf FN Z. destruct (finalize_any g (count rs) det depth I CL (NE C)) as (gf' & K & F0 & EF & G0 & GD & SK & _).
    specialize (EF (Nat.max F0 F) (Nat.le_max_l _ _)). rewrite (finalize_mono F (Nat.max F0 F) det depth g gf (Nat.le_max_r _ _) FN) in EF. injection EF as <-. exists K. auto. }
  destruct (X _ _ _ _ FN1 Z1) as (K1 & G1 & _ & B1). destruct (X _ _ _ _ FN2 Z2) as (K2 & G2 & _ & B2).
  pose proof (compiled_hits_leftmost gf1 K1 fa fb P1 G1 S1 CP1 fuel HV1 cs off hits1 vs1 l Ho Hb E1) as L1.
  pose proof (compiled_hits_leftmost gf2 K2 fc fd P2 G2 S2 CP2 fuel HV2 cs off hits2 vs2 l Ho Hb E2) as L2.
  eapply leftmost_unique; [exact L1|]. eapply leftmost_hd; [|exact L2]. intros s. cbn beta. unfold preferred. rewrite B1, B2. auto.
Qed.

(** C12.  Keywords added later make no difference to those added before. *)
Theorem later_keywords_partial ks more fuel g rs g2 rs2 : keywords_ok (ks ++ more) -> keywords_fuel sort sort_len (ks ++ more) <= fuel ->
  add_all fuel [v_new] 0 (handed ks) = Ok (g, rs) -> add_all fuel [v_new] 0 (handed (ks ++ more)) = Ok (g2, rs2) ->
  firstn (length ks) rs2 = rs /\ forall j l, nth_error rs j = Some (Some l) -> same_keyword g g2 l.
Proof.
  intros (HK & HN) HF E E2. rewrite app_length in HN.
  assert (FB : forall e t i, In (e, t) (ks ++ more) -> i < length ks + length more -> pattern_fuel (fenc e) t (N.of_nat i) <= fuel).
  { intros e t i Hi Hl. eapply Nat.le_trans; [eapply keywords_fuel_ok; eauto; rewrite app_length; auto|auto]. }
  destruct (add_all_spec sort sort_len sort_perm sort_len_perm sort_len_sorted ks [v_new] 0%N fuel) as (g' & rs' & E' & L & I & _ & R & _).
  - intros e t Hi. apply HK. apply in_or_app; auto.
  - apply inv_ext with (2 := empty_inv). intros l [].
  - unfold NOLABEL. unfold two24 in HN. lia.
  - intros e t i Hi Hl. rewrite N.add_0_l. apply FB; [apply in_or_app; auto|lia].
  - rewrite E in E'. injection E' as <- <-. pose proof (count_le rs) as CL.
    destruct (add_all_spec sort sort_len sort_perm sort_len_perm sort_len_sorted more g (0 + N.of_nat (count rs))%N fuel) as (g3 & rs3 & E3 & L3 & _ & S3 & _).
    + intros e t Hi. apply HK. apply in_or_app; auto.
    + exact I.
    + unfold NOLABEL. unfold two24 in HN. lia.
    + intros e t i Hi Hl. replace (0 + N.of_nat (count rs) + N.of_nat i)%N with (N.of_nat (count rs + i)) by lia. apply FB; [apply in_or_app; auto|lia].
    + rewrite map_app in E2. rewrite (add_all_app fuel _ _ _ _ _ _ _ _ E E3) in E2. injection E2 as <- <-. split.
      * rewrite <- L. rewrite firstn_app, Nat.sub_diag, firstn_all, app_nil_r. auto.
      * intros j l Ej. apply S3. assert (JL : j < length ks) by (rewrite <- L; apply nth_error_Some; congruence).
        destruct (nth_error ks j) as [[e t]|] eqn:Ek; [|apply nth_error_None in Ek; lia]. specialize (R j e t Ek). rewrite Ej in R. destruct R as (_ & El & _).
        pose proof (count_mono rs j (length rs) l ltac:(rewrite L; auto) Ej) as X. rewrite firstn_all in X. lia.
Qed.
End Statements.

(** * Cases

    In the patterns and texts below the letters a, b, ... stand for the bytes 1, 2, ...: the filter,
    whose size depends on the bytes, is then quickly computed. *)
Local Notation A := (EBase ASCII).
Local Notation hands ks := (map (fun k : encoder * pnode => (factory_enc no_sort sort_by_len (fst k), Some (snd k))) ks).
Local Notation cls l := (PAtom (AClass (flat_map (fun x => [x; (x + 1)%N]) l) bs_empty true)).
Local Notation cat2 a b := (PCat (ch a) (ch b)).

(** Creating a program with the given depth and searching one buffer *)
Definition search_all (fuel1 fuel2 : nat) (depth : N) (ks : list (encoder * pnode)) (w : list N) : res (list (option N) * list hit) :=
  ' (g, rs) <- add_all 2000 [v_new] 0 (hands ks) ;; gf <- finalizeGraph 100 false depth g ;; P <- createProgram fuel1 fuel2 gf ;;
  ' (h, _) <- session 400 P (chunk_calls 0 [w] ++ [CClose true]) ;; Ok (rs, h).

(** `(b|c)d?e` and `a*` in ASCII, `b[de]+` in UTF-16LE and in UTF-8: the second is refused *)
Definition ex_1 : pnode := PCat (PAlt (ch 2) (ch 3)) (PCat (PRep true (ch 4) 0 1) (ch 5)).
Definition ex_2 : pnode := PRep true (ch 1) 0 UNBOUNDED.
Definition ex_3 : pnode := PCat (ch 2) (PRep true (PAtom (AClass [4; 6]%N bs_empty true)) 1 UNBOUNDED).
Definition ex_ks : list (encoder * pnode) := [(A, ex_1); (A, ex_2); (EBase (UTF16 true), ex_3); (EBase UTF8, ex_3)].
Definition ex_rs : list (option N) := [Some 0%N; None; Some 1%N; Some 2%N].
Definition ex_prog (depth : N) : program := match (' (g, rs) <- add_all 2000 [v_new] 0 (hands ex_ks) ;; gf <- finalizeGraph 100 false depth g ;; createProgram 13 200 gf) with Ok P => P | _ => {| p_words := []; p_maxLabel := 0; p_maxCheck := 0; p_filterOff := 0; p_filter := 0 |} end.
Definition ex_P : program := ex_prog 0.
Definition ex_D : program := ex_prog 4294967295.

Ltac easy_ok := split; try (vm_compute; reflexivity); try (simpl; unfold UNBOUNDED, two32; repeat split; try lia).

Lemma ex_keywords : keywords_ok ex_ks.
Proof.
  split; [|vm_compute; discriminate].
  assert (CL : atom_ok (AClass [4; 6]%N bs_empty true)).
  { split; [|apply empty_wf]. split; [repeat constructor; lia|reflexivity|repeat constructor; lia]. }
  assert (B3 : buildable ex_3). { easy_ok. intros a [<-|[<-|[]]]; [exact I|exact CL]. }
  intros e t [[= <- <-]|[[= <- <-]|[[= <- <-]|[[= <- <-]|[]]]]]; (split; [exact I|]); auto.
  - easy_ok. intros a [<-|[<-|[<-|[<-|[]]]]]; exact I.
  - easy_ok. intros a [<-|[]]; exact I.
Qed.

Definition succeeded {A} (r : res A) : bool := match r with Ok _ => true | _ => false end.

(** With depth 0, 2^32 - 1 and 4 *)
Lemma ex_created depth : depth = 0%N \/ depth = 4294967295%N \/ depth = 4%N -> created no_sort sort_by_len ex_ks ex_rs (ex_prog depth).
Proof.
  intros HD. assert (HF : keywords_fuel no_sort sort_by_len ex_ks <= 2000) by (apply Nat.leb_le; vm_compute; reflexivity).
  assert (X : exists g, add_all 2000 [v_new] 0 (hands ex_ks) = Ok (g, ex_rs)) by (eexists; vm_compute; reflexivity). destruct X as (g & EA).
  assert (X : exists gf, finalizeGraph 100 false depth g = Ok gf /\ 2 <= length (nodup Nat.eq_dec (outs gf 0)) /\ fits32 gf /\ succeeded (createProgram 13 200 gf) = true).
  { vm_compute in EA. injection EA as <-. destruct HD as [-> | [-> | ->]]; (eexists; split; [vm_compute; reflexivity|]; split; [vm_compute; lia|]; split; vm_compute; reflexivity). }
  destruct X as (gf & EF & Z & F32 & CS).
  assert (CP : createProgram 13 200 gf = Ok (ex_prog depth)).
  { unfold ex_prog. rewrite EA. cbn [bind]. rewrite EF. cbn [bind]. destruct (createProgram 13 200 gf); [reflexivity|discriminate CS..]. }
  exists 2000, 100, 13, 200, false, depth, g, gf. split; [exact ex_keywords|]. split; auto. split; auto. split; auto. split; auto. apply two_roots. auto.
Qed.

Example ex_determinized : p_words ex_D <> p_words ex_P /\ 2 * length (p_words ex_D) <= 400 /\
  session 400 ex_D (chunk_calls 5 [[2; 4; 5]; [5; 2; 0; 4; 0]]%N ++ [CClose true]) =
  Ok ([{| h_start := 5; h_end := 8; h_label := 0 |}; {| h_start := 5; h_end := 9; h_label := 2 |}; {| h_start := 9; h_end := 13; h_label := 1 |}], [5; 9; 0]%N).
Proof. split; [vm_compute; discriminate|]. split; [apply Nat.leb_le; vm_compute; reflexivity|vm_compute; reflexivity]. Qed.

Example ex_searched : 2 * length (p_words ex_P) <= 400 /\
  session 400 ex_P (chunk_calls 5 [[2; 4; 5]; [5; 2; 0; 4; 0]]%N ++ [CClose true]) =
  Ok ([{| h_start := 5; h_end := 8; h_label := 0 |}; {| h_start := 5; h_end := 9; h_label := 2 |}; {| h_start := 9; h_end := 13; h_label := 1 |}], [5; 9; 0]%N).
Proof. split; [apply Nat.leb_le; vm_compute; reflexivity|vm_compute; reflexivity]. Qed.

Example ex_added : (addable A ex_1 /\ ~ addable A ex_2) /\ branches_distinct no_sort sort_by_len A ex_1.
Proof.
  split; [split|].
  - destruct (created_facts no_sort sort_by_len no_sort_perm by_len_perm by_len_sorted _ _ _ (ex_created 0 (or_introl eq_refl))) as (gf & K & f1 & f2 & _ & _ & _ & _ & _ & KW).
    apply (KW 0 A ex_1 0%N eq_refl eq_refl).
  - intros (H & _). apply H. exists 0. split; [vm_compute; split; [discriminate|auto]|reflexivity].
  - destruct (build (factory_enc no_sort sort_by_len A) 0 (Some ex_1)) as [[g|]| | |] eqn:E; try (vm_compute in E; discriminate).
    exists 0%N, g. split; [reflexivity|]. split; auto. vm_compute in E. injection E as <-. apply distinct_b_sound. vm_compute. reflexivity.
Qed.

(** C42.  `(j(a|ah))+h` on "jahh": a backtracking matcher reports "jah", the program "jahh", since the
    two states for `a` are merged. *)
Definition mc_t : pnode := PCat (PRep true (PCat (ch 10) (PAlt (ch 1) (cat2 1 8))) 1 UNBOUNDED) (ch 8).
Theorem merging_choice_refuted : exists t w, buildable t /\ leaves_of A lit t /\ firm_loops t /\ tail_ok t /\ chosen lit t w = Some [8]%N /\
  search_all 6 60 0 [(A, t)] w = Ok ([Some 0%N], [{| h_start := 0; h_end := 4; h_label := 0 |}]).
Proof.
  exists mc_t, [10; 1; 8; 8]%N.
  assert (AT : forall a, In a (atoms mc_t) -> exists c, a = ALit c /\ (0 <= c < 128)%Z).
  { intros a Ha. vm_compute in Ha. repeat destruct Ha as [<-|Ha]; try destruct Ha; eexists; split; try reflexivity; lia. }
  split; [easy_ok; intros a Ha; destruct (AT a Ha) as (c & -> & _); exact I|]. split; [apply ascii_leaves; auto|]. split; [vm_compute; intuition (auto; congruence)|].
  split; [vm_compute; intuition (auto; congruence)|]. split; vm_compute; reflexivity.
Qed.

(** C12.  `(h(b??)|h([df]cjj|(fc)??))j` on "hfcjjj": alone it is found up to the end, together with the
    keyword "hfk" just up to the first j. *)
Definition kf_t : pnode :=
  PCat (PAlt (PCat (ch 8) (PRep false (ch 2) 0 1)) (PCat (ch 8) (PAlt (PCat (cls [4; 6]%N) (PCat (ch 3) (cat2 10 10))) (PRep false (cat2 6 3) 0 1)))) (ch 10).
Theorem keyword_interference_refuted : exists t t' w, buildable t /\ buildable t' /\
  search_all 12 150 0 [(A, t)] w = Ok ([Some 0%N], [{| h_start := 0; h_end := 6; h_label := 0 |}]) /\
  search_all 14 200 0 [(A, t'); (A, t)] w = Ok ([Some 0%N; Some 1%N], [{| h_start := 0; h_end := 4; h_label := 1 |}]).
Proof.
  exists kf_t, (PCat (ch 8) (cat2 6 11)), [8; 6; 3; 10; 10; 10]%N.
  split; [easy_ok|split; [easy_ok|]].
  - intros a Ha. vm_compute in Ha. repeat destruct Ha as [<-|Ha]; try destruct Ha; try exact I. split; [|apply empty_wf]. split; [repeat constructor; lia|reflexivity|repeat constructor; lia].
  - intros a [<-|[<-|[<-|[]]]]; exact I.
  - split; vm_compute; reflexivity.
Qed.

(** C11, C34, C42.  Determinizing loses hits: `(ac|ad|ae|af)*a[bg]` on "acab". *)
Definition dz_t : pnode := PCat (PRep true (PAlt (cat2 1 3) (PAlt (cat2 1 4) (PAlt (cat2 1 5) (cat2 1 6)))) 0 UNBOUNDED) (PCat (ch 1) (cls [2; 7]%N)).
Theorem determinized_hits_refuted : exists t w, buildable t /\
  search_all 16 300 0 [(A, t)] w = Ok ([Some 0%N], [{| h_start := 0; h_end := 4; h_label := 0 |}]) /\
  search_all 8 64 4294967295 [(A, t)] w = Ok ([Some 0%N], [{| h_start := 2; h_end := 4; h_label := 0 |}]).
Proof.
  exists dz_t, [1; 3; 1; 2]%N. split; [easy_ok|split; vm_compute; reflexivity].
  intros a Ha. vm_compute in Ha. repeat destruct Ha as [<-|Ha]; try destruct Ha; try exact I. split; [|apply empty_wf]. split; [repeat constructor; lia|reflexivity|repeat constructor; lia].
Qed.

(** C43.  Determinizing to depth 1 leaves repeated edges, with which the code generator writes out of
    bounds: `([ab]|[ac]|[ad]|[ae])h`. *)
Definition sh_t : pnode := PCat (PAlt (cls [1; 2]%N) (PAlt (cls [1; 3]%N) (PAlt (cls [1; 4]%N) (cls [1; 5]%N)))) (ch 8).
Theorem shallow_determinization_refuted : exists t g gf, addPattern 2000 (factory_enc no_sort sort_by_len A) [v_new] (Some t) 0 = Ok g /\
  finalizeGraph 100 false 1 g = Ok gf /\ fits32 gf /\ createProgram 8 25 gf = UB.
Proof.
  exists sh_t.
  destruct (addPattern 2000 (factory_enc no_sort sort_by_len A) [v_new] (Some sh_t) 0) as [g| | |] eqn:E; try (vm_compute in E; discriminate).
  destruct (finalizeGraph 100 false 1 g) as [gf| | |] eqn:E2; try (vm_compute in E; injection E as <-; vm_compute in E2; discriminate).
  exists g, gf. split; auto. split; auto. vm_compute in E. injection E as <-. vm_compute in E2. injection E2 as <-. split; vm_compute; reflexivity.
Qed.

(** C33.  "Exactly the new pattern's": of `h|hi` only h is left, pruning having removed hi. *)
Theorem pattern_language_refuted : exists t w g, PatSpec.lang (enc_atom A) t w /\
  addPattern 2000 (factory_enc no_sort sort_by_len A) [v_new] (Some t) 0 = Ok g /\ ~ matches g 0 w.
Proof.
  exists (PAlt (ch 8) (cat2 8 9)), [8; 9]%N.
  destruct (addPattern 2000 (factory_enc no_sort sort_by_len A) [v_new] (Some (PAlt (ch 8) (cat2 8 9))) 0) as [g| | |] eqn:E; try (vm_compute in E; discriminate).
  exists g. split; [|split; auto].
  - right. exists [8]%N, [9]%N. split; auto. split; apply encodes_iff; simpl; auto; split; auto; discriminate.
  - vm_compute in E. injection E as <-. intros M. inversion M as [|? ? x ? ? c Ex Hc En M1]; subst. injection Ex as <-. destruct Hc as [<-|[]].
    inversion M1 as [|? ? x ? ? c Ex Hc En1 M2]; subst. injection Ex as <-. destruct Hc.
Qed.

Lemma unlabelled_none g : (forall v x, nth_error g v = Some x -> v_label x = NOLABEL) -> forall l lab w v, accepts g l lab w v -> lab = l.
Proof.
  intros H l lab w v M. induction M as [lab v x Ex Mx El|lab v x b w c Ex Hc En M IH]; [rewrite <- El|rewrite <- IH]; unfold newlab; rewrite (H v x Ex), N.eqb_refl; auto.
Qed.

Definition sp_g : nfa := Eval vm_compute in
  match (g <- addPattern 2000 (factory_enc no_sort sort_by_len A) [v_new] (Some (PCat (ch 1) (PCat (PRep true (ch 2) 1 UNBOUNDED) (ch 3)))) 0 ;; finalizeGraph 100 false 0 g) with Ok g => g | _ => [] end.

Definition sp_g2 : nfa := Eval vm_compute in match set_label sp_g 1 UNLABELABLE with Ok g => g | _ => [] end.

Lemma sp_back : forall F g next, g = sp_g \/ g = sp_g2 -> Forall (fun v => v < 4) next -> In 2 next -> label_back F g NOLABEL next = Fuel.
Proof.
  induction F as [|F IH]; intros g [|t rest] HG HN H2; try destruct H2; try reflexivity; inversion HN as [|? ? Ht HR]; subst.
  - destruct F as [|F]; [destruct HG as [-> | ->]; reflexivity|].
    destruct HG as [-> | ->]; change (label_back (S F) sp_g2 NOLABEL (2 :: rest) = Fuel); apply IH; auto; left; auto.
  - assert (T : t = 0 \/ t = 1 \/ t = 2 \/ t = 3) by lia. destruct HG as [-> | ->]; destruct T as [-> | [-> | [-> | ->]]].
    + change (label_back F sp_g NOLABEL rest = Fuel). apply IH; auto.
    + change (label_back F sp_g NOLABEL rest = Fuel). apply IH; auto.
    + destruct F as [|F]; [reflexivity|]. change (label_back (S F) sp_g2 NOLABEL (2 :: rest) = Fuel). apply IH; auto. left; auto.
    + change (label_back F sp_g NOLABEL (2 :: rest) = Fuel). apply IH; auto. left; auto.
    + change (label_back F sp_g2 NOLABEL rest = Fuel). apply IH; auto.
    + change (label_back F sp_g2 NOLABEL rest = Fuel). apply IH; auto.
    + change (label_back F sp_g2 NOLABEL (2 :: rest) = Fuel). apply IH; auto. left; auto.
    + change (label_back F sp_g2 NOLABEL (2 :: rest) = Fuel). apply IH; auto. left; auto.
Qed.

(** C45.  lg_create_program works on the automaton in place.  A second call loses the label of "ab",
    so that nothing is reported any more, and does not end for "ab+c". *)
Theorem second_program_refuted :
  (exists t g g1 g2, addPattern 2000 (factory_enc no_sort sort_by_len A) [v_new] (Some t) 0 = Ok g /\ finalizeGraph 100 false 0 g = Ok g1 /\ finalizeGraph 100 false 0 g1 = Ok g2 /\
     matches g1 0 [1; 2]%N /\ forall l, l <> NOLABEL -> forall w, ~ matches g2 l w) /\
  (exists t g g1, addPattern 2000 (factory_enc no_sort sort_by_len A) [v_new] (Some t) 0 = Ok g /\ finalizeGraph 100 false 0 g = Ok g1 /\
     forall F, finalizeGraph F false 0 g1 = Fuel).
Proof.
  split.
  - exists (cat2 1 2). destruct (addPattern 2000 (factory_enc no_sort sort_by_len A) [v_new] (Some (cat2 1 2)) 0) as [g| | |] eqn:E; try (vm_compute in E; discriminate).
    vm_compute in E. injection E as <-. do 3 eexists. split; [reflexivity|]. split; [vm_compute; reflexivity|]. split; [vm_compute; reflexivity|]. split.
    + eapply acc_step; [reflexivity|left; reflexivity|reflexivity|]. eapply acc_step; [reflexivity|left; reflexivity|reflexivity|]. eapply acc_match; reflexivity.
    + intros l Hl w M. apply Hl. symmetry. eapply unlabelled_none; [|exact M]. intros [|[|[|v]]] x Ex; try (injection Ex as <-; reflexivity). destruct v; discriminate.
  - exists (PCat (ch 1) (PCat (PRep true (ch 2) 1 UNBOUNDED) (ch 3))).
    destruct (addPattern 2000 (factory_enc no_sort sort_by_len A) [v_new] (Some (PCat (ch 1) (PCat (PRep true (ch 2) 1 UNBOUNDED) (ch 3)))) 0) as [g| | |] eqn:E; try (vm_compute in E; discriminate).
    exists g, sp_g. split; auto. split; [vm_compute in E; injection E as <-; vm_compute; reflexivity|].
    intros F. change (finalizeGraph F false 0 sp_g) with (labelGuardStates F sp_g). unfold labelGuardStates.
    assert (X : propagateMatchLabels F sp_g = Fuel); [|rewrite X; reflexivity].
    change (propagateMatchLabels F sp_g) with (g1 <- label_back F sp_g NOLABEL [3] ;; propagate F g1 []).
    destruct F as [|F]; [reflexivity|]. change (label_back (S F) sp_g NOLABEL [3]) with (label_back F sp_g NOLABEL [2]). rewrite sp_back; auto. left; auto.
Qed.

Print Assumptions keywords_added.
Print Assumptions program_created.
Print Assumptions searched_safe.
Print Assumptions searched_chunking_invariant.
Print Assumptions searched_returned_offset.
Print Assumptions searched_filter_irrelevant.
Print Assumptions searched_no_false_hits.
Print Assumptions searched_no_missed_match.
Print Assumptions searched_hits_leftmost.
Print Assumptions searched_hits_chosen_partial.
Print Assumptions keyword_independence_partial.
Print Assumptions keyword_first_hit_partial.
Print Assumptions depth_irrelevant_partial.
Print Assumptions later_keywords_partial.
Print Assumptions merging_choice_refuted.
Print Assumptions keyword_interference_refuted.
Print Assumptions determinized_hits_refuted.
Print Assumptions shallow_determinization_refuted.
Print Assumptions pattern_language_refuted.
Print Assumptions second_program_refuted.
