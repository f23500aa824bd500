(** From patterns to the automaton that is compiled: adding patterns one by one, then marking guard
    states. *)
From Coq Require Import Sorting.Permutation Sorting.Sorted.
From Verif Require Import Base NfaModel VmModel CodegenSpec CodegenTotal Thm_Codegen ByteSetModel EncModel EncProofs Thm_Enc PatModel PatSpec BuildModel BuildSpec BuildProofs BuildTree BuildEnc Thm_Build
  OptModel OptSpec OptPrune OptMerge OptMergeLang OptMergeBest OptLive OptGuard OptZero.
Open Scope nat_scope.

Lemma kept_length B M : forall l mbs, length (kept B M mbs l) <= length l.
Proof. induction l as [|t l IH]; intros mbs; simpl; auto. destruct (_ =? _)%N; simpl; [pose proof (IH (if M t then N.lor mbs (N.ldiff (B t) mbs) else mbs)); lia|apply le_n_S, IH]. Qed.

Lemma fewer_pairs g g' : length g' = length g -> (forall v, length (outs g' v) <= length (outs g v)) -> merge_fuel g' <= merge_fuel g.
Proof.
  intros L H. assert (P : length (all_pairs g') <= length (all_pairs g)).
  { unfold all_pairs. rewrite L. induction (seq 0 (length g)) as [|v l IH]; simpl; auto. rewrite !app_length. specialize (H v). unfold out_pairs. rewrite !map_length, !seq_length. unfold out_pairs in IH. lia. }
  unfold merge_fuel. pose proof (Nat.mul_le_mono _ _ _ _ P P). lia.
Qed.

(** Enough steps for adding [t] *)
Definition pattern_fuel (enc : enc_if) (t : pnode) (label : N) : nat :=
  match build enc label (Some t) with Ok (Some g) => length g + merge_fuel g | _ => 0 end.

Lemma inv_ext g (L L' : N -> Prop) : (forall l, L l -> L' l) -> fsm_inv g L -> fsm_inv g L'.
Proof. intros H [A B C D E F]. split; auto. intros v. destruct (F v); auto. Qed.

Lemma accepts_best g l : forall w lab v pos, accepts g l lab w v -> best g l lab w v pos <> None.
Proof.
  induction w as [|b w IH]; intros lab v pos A; inversion A as [? ? x HX HM HN|? ? x ? ? c HX HO HE HA]; subst.
  - eapply best_found; eauto.
  - cbn [best]. rewrite HX. fold (newlab x lab). destruct (first_some _ (v_out x)) as [e|] eqn:E; [discriminate|]. exfalso.
    revert E. generalize (v_out x) HO. induction l0 as [|y l0 IHl]; intros Hc E; [destruct Hc|]. cbn [first_some] in E.
    destruct Hc as [->|Hc].
    + rewrite HE in E. specialize (IH _ _ (pos + 1)%N HA). destruct (best g l (newlab x lab) w c (pos + 1)); [discriminate|congruence].
    + destruct (if enters g y b then _ else _); [discriminate|]. apply IHl; auto.
Qed.

Lemma kept_nodup B M : forall l mbs, NoDup l -> NoDup (kept B M mbs l).
Proof.
  induction l as [|t l IH]; intros mbs H; cbn [kept]; [constructor|]. inversion H; subst. destruct (_ =? _)%N; auto. constructor; auto. intros X. apply kept_in in X. auto.
Qed.

(** From no state do two edges lead to states that look alike. *)
Definition distinct_branches (g : nfa) : Prop :=
  (forall h c c', In c (outs g h) -> In c' (outs g h) -> bts g c = bts g c' -> lbl g c = lbl g c' -> c = c') /\ no_parallel g.

(** The patterns that are accepted *)
Definition addable (e : encoder) (t : pnode) : Prop := ~ PatSpec.lang (enc_atom e) t [] /\ forall a, In a (atoms t) -> exists w, enc_atom e a w.

(** What was added as keyword [label]: it accepts only texts of the pattern, and some beginning of
    each of them; *)
Definition represents (g : nfa) (label : N) (e : encoder) (t : pnode) : Prop :=
  (forall w, matches g label w -> PatSpec.lang (enc_atom e) t w) /\
  (forall w, PatSpec.lang (enc_atom e) t w -> exists k, k <= length w /\ matches g label (firstn k w)).

(** in the automata [g] and [g'] keyword [l] is the same. *)
Definition same_keyword (g g' : nfa) (l : N) : Prop := (forall w, matches g' l w <-> matches g l w) /\ forall w pos, best g' l NOLABEL w 0 pos = best g l NOLABEL w 0 pos.

Lemma same_trans g g1 g2 l : same_keyword g g1 l -> same_keyword g1 g2 l -> same_keyword g g2 l.
Proof. intros (A & B) (A' & B'). split; [intros w; rewrite A', A; tauto|intros w pos; rewrite B', B; auto]. Qed.

Lemma same_represents g g' l e t : same_keyword g g' l -> represents g l e t -> represents g' l e t.
Proof. intros (A & _) (R1 & R2). split; [intros w H; apply R1, A; auto|]. intros w H. destruct (R2 w H) as (k & Hk & M). exists k. split; auto. apply A; auto. Qed.

Lemma in_sum x l : In x l -> x <= list_sum l.
Proof. unfold list_sum. induction l as [|y l IH]; [intros []|]. intros [-> | H]; cbn [fold_right]; [lia|specialize (IH H); lia]. Qed.

Lemma new_zero : zero_ok [v_new].
Proof. intros d c _ C0 _ H. exfalso. apply outs_in in H. simpl in H. lia. Qed.

(** Creating a program without determinizing *)
Lemma finalize_spec g n F det : fsm_inv g (fun l => (l < N.of_nat n)%N) -> (N.of_nat n <= UNLABELABLE)%N -> outs g 0 <> [] -> guard_fuel g <= F ->
  exists g' K, finalizeGraph F det 0 g = Ok g' /\ good0 g' K /\ (zero_ok g' -> good g' K) /\ (zero_ok g -> zero_ok g') /\ length g' = length g /\ (forall l, same_keyword g g' l) /\
    ((N.of_nat n <= two24)%N -> (N.of_nat (length g) < two24)%N -> compilable g').
Proof.
  intros I HN NE HF. assert (R : In (hd 0 (outs g 0)) (outs g 0)) by (destruct (outs g 0); [congruence|left; auto]).
  destruct (edge_bounds g 0 _ (fi_ok _ _ I) R) as (C0 & CL & VL). assert (L2 : 2 <= length g) by lia.
  destruct (guard_spec g _ (inv_core _ _ I)) with (F := F) as (g' & K & E & G & L & SH & BE & MA); auto; [intros l; simpl; lia|].
  exists g', K. unfold finalizeGraph. destruct (Nat.ltb_spec (length g) 2); [lia|]. cbn [N.eqb negb andb bind]. split; auto. split; auto.
  assert (BK : forall v x, nth_error g' v = Some x -> exists y, nth_error g v = Some y /\ v_out x = v_out y /\ v_match x = v_match y /\ (v_label x = NOLABEL \/ (v_label x < N.of_nat n)%N)).
  { intros v x Ex. assert (HL : v < length g) by (rewrite <- L; apply nth_error_Some; congruence). destruct (nth_lt g v HL) as (y & Ey). destruct (SH v y Ey) as (l & El & Hl). rewrite El in Ex. injection Ex as <-. exists y. auto. }
  assert (OE : forall v, outs g' v = outs g v).
  { intros v. unfold outs. destruct (nth_error g' v) as [x|] eqn:Ex; [destruct (BK v x Ex) as (y & -> & -> & _); auto|].
    destruct (nth_error g v) eqn:Ey; auto. apply nth_error_None in Ex. assert (v < length g) by (apply nth_error_Some; congruence). lia. }
  assert (ME : forall v, mat g' v = mat g v).
  { intros v. unfold mat. destruct (nth_error g' v) as [x|] eqn:Ex; [destruct (BK v x Ex) as (y & -> & _ & -> & _); auto|].
    destruct (nth_error g v) eqn:Ey; auto. apply nth_error_None in Ex. assert (v < length g) by (apply nth_error_Some; congruence). lia. }
  split; [|split; [|split; auto; split; [intros l; split; auto|]]].
  - intros Z. split; auto. intros d c x Ed Hc Ex Ox. destruct (v_match x) eqn:Mx; auto. exfalso.
    assert (Oc : outs g' c = [d]) by (unfold outs; rewrite Ex; auto).
    destruct (Z d c) as (d' & Hd' & Nd); auto; [rewrite Ed; intros i [<-|[]]; auto|unfold mat; rewrite Ex; auto|rewrite Oc; left; auto|].
    rewrite Oc in Hd'. destruct Hd' as [<-|[]]. congruence.
  - intros Z d c. rewrite !OE, ME. apply Z.
  - intros HN2 HL2. split.
    + intros v x Ex. destruct (BK v x Ex) as (y & Ey & -> & _). pose proof (fi_nodup _ _ I v) as X. unfold outs in X. rewrite Ey in X. auto.
    + intros v x Ex. destruct (BK v x Ex) as (y & Ey & _ & _ & [H1|H1]); auto. right. lia.
    + rewrite L. auto.
    + destruct (fi_live _ _ I _ C0 CL) as (l & A). assert (X : forall u, arrives g l u -> exists v x, nth_error g' v = Some x /\ v_match x = true); [|eauto].
      intros u Au. induction Au as [v Mv Lv|]; auto. unfold mat in Mv. destruct (nth_error g v) as [y|] eqn:Ey; [|discriminate].
      destruct (SH v y Ey) as (l' & El & _). exists v. eexists. split; [exact El|auto].
Qed.

Definition added (o : option N) : bool := match o with Some _ => true | None => false end.

Definition count (rs : list (option N)) : nat := length (filter added rs).

Definition one_byte_free (ks : list (encoder * pnode)) : Prop := forall e t, In (e, t) ks -> forall b, ~ PatSpec.lang (enc_atom e) t [b].

Section Encodings.
Variable sort : nat -> nat -> list (list bset) -> list (list bset).
Variable sort_len : list (list bset) -> list (list bset).
Hypothesis sort_perm : forall a b l, Permutation l (sort a b l).
Hypothesis sort_len_perm : forall l, Permutation l (sort_len l).
Hypothesis sort_len_sorted : forall l, StronglySorted (fun a b => length a <= length b) (sort_len l).
Notation fenc := (factory_enc sort sort_len).




Theorem add_pattern e t fsm label L fuel : enc_ok e -> buildable t -> fsm_inv fsm L -> ~ L label -> (label < NOLABEL)%N -> pattern_fuel (fenc e) t label <= fuel ->
  match addPattern fuel (fenc e) fsm (Some t) label with
  | Ok g => addable e t /\ fsm_inv g (fun l => L l \/ l = label) /\ represents g label e t /\ (forall l, l <> label -> same_keyword fsm g l) /\
      (forall g0, build (fenc e) label (Some t) = Ok (Some g0) -> distinct_branches g0 -> forall w pos, best g label NOLABEL w 0 pos = best g0 label NOLABEL w 0 pos) /\
      outs g 0 <> [] /\ ((forall b, ~ PatSpec.lang (enc_atom e) t [b]) \/ outs fsm 0 <> [] -> zero_ok g)
  | Throw => ~ addable e t
  | _ => False
  end.
Proof.
  intros OK B I NL HL HF. pose proof (build_outcome sort sort_len sort_perm sort_len_perm sort_len_sorted e OK t label B) as BO.
  pose proof (build_spec (fenc e) label t _ _ (tree_builds sort sort_len sort_perm sort_len_perm sort_len_sorted e OK t B)) as BS.
  pose proof (automaton_language sort sort_len sort_perm sort_len_perm sort_len_sorted e OK t label) as AL.
  unfold addPattern, pattern_fuel in *. destruct (build (fenc e) label (Some t)) as [[g0|]| | |] eqn:EB; cbn [bind]; try (intros (A1 & A2)); try tauto.
  2: { destruct BO as (a & Ha & BO). destruct (A2 a Ha) as (w & Hw). eapply BO; eauto. }
  specialize (AL g0 B HL eq_refl). destruct BS as (_ & _ & gb & f & _ & BU & _).
  destruct (built_fsm gb f label g0 BU HL) as (F0 & LI & LV). destruct (built_shape gb f label g0 BU HL) as ((x0 & Ex0 & _ & _ & _ & _ & Ox0) & _).
  assert (NE0 : outs g0 0 <> []) by (unfold outs; rewrite Ex0; auto).
  destruct (prune_spec g0 fuel F0) as (g1 & EP & F1 & L1 & A1 & O1 & _); [lia|]. rewrite EP. cbn [bind].
  assert (MF : merge_fuel g1 <= fuel).
  { eapply Nat.le_trans; [apply (fewer_pairs g0 g1); auto|lia]. intros v. destruct (O1 v) as [->|E]; [auto|rewrite E; apply kept_length]. }
  assert (LI1 : labels_in g1 (fun l => l = label)) by (intros v; rewrite (lbl_attrs g0) by auto; apply LI).
  assert (LV1 : live g1) by (apply (prune_live g0 fuel g1); auto; lia).
  assert (LN : label <> NOLABEL) by lia.
  assert (NE1 : outs g1 0 <> []).
  { destruct (O1 0) as [->|E]; auto. rewrite E. apply kept_nonempty; auto. intros c Hc. apply bts_nonzero; auto; apply (edge_bounds g0 0 c F0 Hc). }
  destruct (merge_inv fsm g1 label L fuel I F1 LI1 LV1 NL LN MF) as (g & EM & IG).
  assert (FR : forall v, lbl fsm v <> label) by (intros v E; destruct (fi_labels _ _ I v) as [X|X]; congruence).
  destruct (merge_language fsm g1 label fuel (fi_ok _ _ I) F1 (fi_reach _ _ I) LI1 FR LN MF) as (g' & EM' & _ & _ & _ & _ & LM & BM).
  rewrite EM in EM'. injection EM' as <-. rewrite EM. split; [split; tauto|]. split; auto. split; [|split; [|split; [|split]]].
  - split.
    + intros w H. apply LM in H as [(H & _)|(_ & H)]; [congruence|]. apply AL with (l := label). apply (prune_accepts g0 fuel g1 label F0 EP); auto. lia.
    + intros w H. assert (A : matches g0 label w) by (apply AL; auto). apply (accepts_best g0 label w NOLABEL 0 0%N) in A.
      rewrite <- (prune_best g0 fuel g1 label F0 LI EP) in A by lia. destruct (best g1 label NOLABEL w 0 0) as [p|] eqn:Eb; [|congruence].
      apply best_accepts in Eb as (k & _ & Hk & Ha). exists k. split; auto. apply LM. auto.
  - intros l Hl. split; auto. intros w. rewrite LM. split; [intros [(_ & H)|(H & _)]; [auto|congruence]|auto].
  - intros gx [= <-] (DB & ND) w pos.
    assert (SB : forall v c, In c (outs g1 v) -> In c (outs g0 v)) by (intros v c Hc; destruct (O1 v) as [E|E]; rewrite E in Hc; auto; eapply kept_in; eauto).
    assert (NT : no_twins g1).
    { intros h c c' Hc Hc' _ _ Eb El. rewrite !(bts_attrs g0 g1) in Eb by auto. rewrite !(lbl_attrs g0 g1) in El by auto. eapply DB; eauto. }
    assert (NP : no_parallel g1) by (intros v; destruct (O1 v) as [->|E]; auto; rewrite E; apply kept_nodup; auto).
    destruct (merge_best fsm g1 label fuel (fi_ok _ _ I) F1 (fi_reach _ _ I) LI1 FR LN MF NT NP (fi_nodup _ _ I)) as (gx & EM2 & _ & BB). rewrite EM in EM2. injection EM2 as <-.
    rewrite BB. apply (prune_best g0 fuel g1 label F0 LI EP). lia.
  - assert (R : In (hd 0 (outs g1 0)) (outs g1 0)) by (destruct (outs g1 0); [congruence|left; auto]).
    intros E. destruct (LV1 (hd 0 (outs g1 0))) as (l & A); [apply (edge_bounds g1 0 _ F1 R)|apply (edge_bounds g1 0 _ F1 R)|].
    assert (W : exists w, matches g1 label w).
    { assert (X : forall v lab, arrives g1 l v -> exists w, accepts g1 label lab w v).
      { intros v lab Av. revert lab. induction Av as [v Mv Lv|v c Hc Av IH]; intros lab.
        - exists []. unfold mat, lbl in *. destruct (nth_error g1 v) as [y|] eqn:Ey; [|discriminate]. apply acc_match with y; auto. pose proof (fk_label _ F1 v y Ey) as X. unfold newlab.
          destruct (N.eqb_spec (v_label y) NOLABEL) as [Z|Z]; [apply X in Mv; congruence|]. specialize (LI1 v). unfold lbl in LI1. rewrite Ey in LI1. tauto.
        - destruct (edge_bounds g1 v c F1 Hc) as (C0 & CL & VL). destruct (bts_bit g1 c F1 C0 CL) as (b & Hb). destruct (nth_lt g1 v VL) as (y & Ey).
          destruct (IH (newlab y lab)) as (w & Hw). exists (b :: w). apply acc_step with y c; auto; [unfold outs in Hc; rewrite Ey in Hc; auto|]. rewrite enters_bts; auto. }
      apply (X 0). eapply ar_step; eauto. }
    destruct W as (w & W). assert (G : matches g label w) by (apply LM; auto). inversion G as [? ? y Ey My|? ? y b w' c Ey Hc]; subst.
    + destruct (fk_root _ (fi_ok _ _ IG)) as (z & Ez & _ & Mz & _). rewrite Ez in Ey. injection Ey as <-. congruence.
    + unfold outs in E. rewrite Ey in E. rewrite E in Hc. destruct Hc.
  - intros Z. apply (merge_zero fsm g1 fuel g); auto; try apply I. destruct Z as [Z|Z]; auto. left. apply (prune_zero g0 fuel g1); auto; [|lia|eapply built_zero; eauto].
    intros c Hc. destruct (mat g0 c) eqn:Mc; auto. exfalso. destruct (edge_bounds g0 0 c F0 Hc) as (C0 & CL & VL). destruct (bts_bit g0 c F0 C0 CL) as (b & Hb).
    apply (Z b). apply AL with (l := label). unfold mat in Mc. destruct (nth_error g0 c) as [y|] eqn:Ey; [|discriminate].
    apply acc_step with x0 c; auto; [unfold outs in Hc; rewrite Ex0 in Hc; auto|rewrite enters_bts; auto|]. apply acc_match with y; auto. unfold newlab.
    pose proof (fk_label _ F0 c y Ey) as X. destruct (N.eqb_spec (v_label y) NOLABEL) as [Q|Q]; [apply X in Mc; congruence|]. specialize (LI c). unfold lbl in LI. rewrite Ey in LI. tauto.
Qed.

(** * A list of patterns *)
Notation handed ks := (map (fun k => (fenc (fst k), Some (snd k))) ks).





Lemma add_all_spec : forall ks fsm label fuel, (forall e t, In (e, t) ks -> enc_ok e /\ buildable t) -> fsm_inv fsm (fun l => (l < label)%N) -> (label + N.of_nat (length ks) <= NOLABEL)%N ->
  (forall e t i, In (e, t) ks -> i < length ks -> pattern_fuel (fenc e) t (label + N.of_nat i) <= fuel) ->
  exists g rs, add_all fuel fsm label (handed ks) = Ok (g, rs) /\ length rs = length ks /\ fsm_inv g (fun l => (l < label + N.of_nat (count rs))%N) /\
    (forall l, (l < label)%N -> same_keyword fsm g l) /\
    (forall j e t, nth_error ks j = Some (e, t) ->
       match nth_error rs j with
       | Some (Some l) => addable e t /\ l = (label + N.of_nat (count (firstn j rs)))%N /\ represents g l e t /\
           (forall g0, build (fenc e) l (Some t) = Ok (Some g0) -> distinct_branches g0 -> forall w pos, best g l NOLABEL w 0 pos = best g0 l NOLABEL w 0 pos)
       | Some None => ~ addable e t
       | None => False
       end) /\
    (count rs = 0 -> g = fsm) /\ (outs fsm 0 <> [] \/ count rs <> 0 -> outs g 0 <> []) /\
    (zero_ok fsm -> one_byte_free ks -> zero_ok g) /\ (outs fsm 0 <> [] -> zero_ok fsm \/ count rs <> 0 -> zero_ok g) /\ (2 <= count rs -> zero_ok g).
Proof.
  induction ks as [|[e t] ks IH]; intros fsm label fuel HK I HL HF; cbn [map add_all fst snd].
  - exists fsm, []. split; auto. split; auto. split; [apply inv_ext with (2 := I); intros l; simpl; lia|]. split; [intros l _; split; tauto|]. split; [intros [|j]; discriminate|].
    unfold count; simpl. split; auto. split; [intros [|]; congruence|]. split; auto. split; [intros _ [X|X]; [exact X|congruence]|lia].
  - destruct (HK e t (or_introl eq_refl)) as (OK & B). assert (HK' : forall e t, In (e, t) ks -> enc_ok e /\ buildable t) by (intros; apply HK; right; auto).
    simpl length in HL, HF.
    assert (HF0 : pattern_fuel (fenc e) t label <= fuel) by (rewrite <- (N.add_0_r label) at 1; apply (HF e t 0); [left; auto|lia]).
    assert (NL : ~ (label < label)%N) by lia. assert (LL : (label < NOLABEL)%N) by lia.
    pose proof (add_pattern e t fsm label _ fuel OK B I NL LL HF0) as AP. destruct (addPattern fuel (fenc e) fsm (Some t) label) as [g1| | |] eqn:EA; try tauto.
    + destruct AP as (AD & I1 & RP & SK & BE & NE & ZO).
      destruct (IH g1 (label + 1)%N fuel HK') as (g & rs & E & LR & IG & SG & RS & C0 & NG & Z1 & Z2 & Z3).
      * apply inv_ext with (2 := I1). intros l; simpl. lia.
      * lia.
      * intros e' t' i Hi Hl. replace (label + 1 + N.of_nat i)%N with (label + N.of_nat (S i))%N by lia. apply (HF e' t'); [right; auto|lia].
      * rewrite E. cbn [bind]. exists g, (Some label :: rs). split; auto. split; [simpl; auto|].
        assert (CR : count (Some label :: rs) = S (count rs)) by reflexivity. rewrite CR.
        split; [apply inv_ext with (2 := IG); intros l; simpl; lia|]. split; [intros l Hl; apply same_trans with g1; [apply SK; lia|apply SG; lia]|]. split; [|split; [lia|split; [|split; [|split]]]].
        -- intros [|j] e' t' Ej; cbn [nth_error] in *.
           ++ injection Ej as <- <-. split; auto. split; [unfold count; simpl; lia|]. split; [eapply same_represents; eauto; apply SG; lia|]. intros g0 E0 DB w pos. rewrite <- (BE g0 E0 DB). apply SG. lia.
           ++ specialize (RS j e' t' Ej). destruct (nth_error rs j) as [[l|]|]; auto. destruct RS as (R1 & R2 & R3). split; auto. split; auto. rewrite R2. cbn [firstn]. unfold count. simpl. lia.
        -- intros _. apply NG. auto.
        -- intros ZF OB. apply Z1; [|intros e' t' Hi; apply OB; right; auto]. apply ZO. left. intros b. apply (OB e t). left; auto.
        -- intros NF _. apply Z2; auto.
        -- intros C2. destruct (Nat.eq_dec (count rs) 0) as [|CN]; [lia|]. apply Z2; auto.
    + destruct (IH fsm label fuel HK' I) as (g & rs & E & LR & IG & SG & RS & C0 & NG & Z1 & Z2 & Z3).
      * lia.
      * intros e' t' i Hi Hl. apply (HF e' t'); [right; auto|lia].
      * rewrite E. cbn [bind]. exists g, (None :: rs). split; auto. split; [simpl; auto|].
        assert (CR : count (None :: rs) = count rs) by reflexivity. rewrite CR. split; auto. split; auto. split; [|split; auto; split; auto; split; auto].
        -- intros [|j] e' t' Ej; cbn [nth_error] in *; [injection Ej as <- <-; auto|]. specialize (RS j e' t' Ej). destruct (nth_error rs j) as [[l|]|]; auto.
        -- intros ZF OB. apply Z1; auto. intros e' t' Hi; apply OB; right; auto.
Qed.

(** Enough steps for adding all *)
Definition keywords_fuel (ks : list (encoder * pnode)) : nat :=
  list_sum (flat_map (fun k => map (fun i => pattern_fuel (fenc (fst k)) (snd k) (N.of_nat i)) (seq 0 (length ks))) ks).


Lemma keywords_fuel_ok ks e t i : In (e, t) ks -> i < length ks -> pattern_fuel (fenc e) t (N.of_nat i) <= keywords_fuel ks.
Proof using.
  intros H Hi. apply in_sum. apply in_flat_map. exists (e, t). split; auto. apply in_map_iff. exists i. split; auto. apply in_seq. split; [apply Nat.le_0_l|exact Hi].
Qed.


End Encodings.
