(** Theorems about lg_add_pattern as a whole: the rewrites (PatModel.v) and then the automaton, and the
    hits, said of the pattern as it was parsed. *)
From Coq Require Import Sorting.Permutation Sorting.Sorted.
From Verif Require Import VmSpec VmIdeal VmSim VmGeneric VmCalls VmCheck Thm_VmRun.
From Verif Require Import Base NfaModel VmModel VmRunnable VmSearch CodegenLayout CodegenModel CodegenSpec CodegenTotal CodegenRun Thm_Codegen ByteSetModel EncModel EncProofs Thm_Enc PatModel PatSpec RewriteProofs
  Thm_Rewrite BuildModel BuildSpec BuildTree BuildEnc BuildTail ReduceBuild ReduceEmpty ReduceSub Thm_Build OptModel OptSpec OptLive OptZero OptPipe Thm_Pipe.
Open Scope nat_scope.

(** A parsed pattern and its text: bounds in order, no more than 2^32 - 2 repetitions in all (beyond,
    sums of bounds wrap; combine_wrap_refuted), leaves as the parser makes them, and no {0} if the text
    shows no '{'. *)
Record parsed (text : list N) (t : pnode) : Prop := {
  pa_bounds : bounds_ok t;
  pa_total : (total t < UNBOUNDED)%N;
  pa_atoms : forall a, In a (atoms t) -> atom_ok a;
  pa_zero : containsPossibleCountedRepetition text = false -> no_zero t
}.

Section Statements.
Variable sort : nat -> nat -> list (list bset) -> list (list bset).
Variable sort_len : list (list bset) -> list (list bset).
Hypothesis sort_perm : forall a b l, Permutation l (sort a b l).
Hypothesis sort_len_perm : forall l, Permutation l (sort_len l).
Hypothesis sort_len_sorted : forall l, StronglySorted (fun a b => length a <= length b) (sort_len l).
Notation fenc := (factory_enc sort sort_len).

(** lightgrep_c_api.cpp:149-188 after parsing *)
Definition add_parsed (fuel : nat) (e : encoder) (fsm : nfa) (text : list N) (t : pnode) (label : N) : res nfa :=
  o <- reduce text (Some t) ;; addPattern fuel (fenc e) fsm o label.

(** Enough steps *)
Definition parsed_fuel (e : encoder) (text : list N) (t : pnode) (label : N) : nat :=
  match reduce text (Some t) with Ok (Some t') => pattern_fuel (fenc e) t' label | _ => 0 end.

Lemma parsed_buildable text t t' : parsed text t -> reduce text (Some t) = Ok (Some t') -> buildable t' /\ (forall a, In a (atoms t') -> In a (atoms t)).
Proof.
  intros [B T A Z] R. pose proof (reduce_keeps_empty text t _ B T Z R) as (K & B' & Z' & A' & _). split; auto. split; auto.
Qed.

(** C32.  A pattern is refused if it has a look-around or matches the empty string; if not, it is
    accepted if each of its leaves has an encoding; and if it is refused, one of the three is the
    reason.  The other keywords stay as they were. *)
Theorem refused_exactly e text t fsm label L fuel : enc_ok e -> parsed text t -> fsm_inv fsm L -> ~ L label -> (label < NOLABEL)%N -> parsed_fuel e text t label <= fuel ->
  let r := add_parsed fuel e fsm text t label in
  (has_look t = true \/ PatSpec.lang (enc_atom e) t [] -> r = Throw) /\
  (has_look t = false -> ~ PatSpec.lang (enc_atom e) t [] -> (forall a, In a (atoms t) -> exists w, enc_atom e a w) -> exists g, r = Ok g) /\
  (r = Throw -> has_look t = true \/ PatSpec.lang (enc_atom e) t [] \/ ~ forall a, In a (atoms t) -> exists w, enc_atom e a w) /\
  (forall g, r = Ok g -> fsm_inv g (fun l => L l \/ l = label) /\ forall l, l <> label -> same_keyword fsm g l) /\
  (r = Throw \/ exists g, r = Ok g).
Proof.
  intros OK PA I NL HL HF r. subst r. unfold add_parsed. pose proof (zero_length_exact (enc_atom e) t (enc_atom_nonempty e OK) (pa_bounds _ _ PA)) as ZE.
  destruct (reduce text (Some t)) as [o| | |] eqn:R.
  2: { exfalso. revert R. unfold reduce. destruct (makeBinopsRightAssociative t) as [t1 b1], (has_look t1), (combineConsecutiveRepetitions t1) as [t2 b2]; try discriminate. destruct (if containsPossibleNongreedy text then _ else _) as [t4 b4], (_ || _); discriminate. }
  2: { exfalso. revert R. unfold reduce. destruct (makeBinopsRightAssociative t) as [t1 b1], (has_look t1), (combineConsecutiveRepetitions t1) as [t2 b2]; try discriminate. destruct (if containsPossibleNongreedy text then _ else _) as [t4 b4], (_ || _); discriminate. }
  2: { apply lookaround_refused in R. cbn [bind]. rewrite R. split; auto. split; [discriminate|]. split; auto. split; [discriminate|auto]. }
  assert (LK : has_look t = false). { destruct (has_look t) eqn:HK; auto. apply (lookaround_refused text) in HK. congruence. }
  pose proof (reduce_keeps_empty text t o (pa_bounds _ _ PA) (pa_total _ _ PA) (pa_zero _ _ PA) R) as RK. cbn [bind]. rewrite LK. destruct o as [t'|].
  - destruct (parsed_buildable text t t' PA R) as (B & AT). destruct RK as (_ & _ & _ & _ & ZZ). unfold parsed_fuel in HF. rewrite R in HF.
    pose proof (zero_length_exact (enc_atom e) t' (enc_atom_nonempty e OK) (bd_bounds _ B)) as ZE'. rewrite ZZ in ZE'.
    pose proof (add_pattern sort sort_len sort_perm sort_len_perm sort_len_sorted e t' fsm label L fuel OK B I NL HL HF) as AP.
    destruct (addPattern fuel (fenc e) fsm (Some t') label) as [g| | |]; try contradiction.
    + destruct AP as ((AD & _) & IG & _ & SK & _). split; [intros [H|H]; [discriminate|exfalso; apply AD, ZE', ZE; auto]|]. split; [eauto|]. split; [discriminate|]. split; [intros g' [= <-]; auto|eauto].
    + split; auto. split; [intros _ NE EN; exfalso; apply AP; split; auto; intros H; apply NE, ZE, ZE'; auto|]. split; [|split; [discriminate|auto]].
      intros _. right. destruct (hasZeroLengthMatch t) eqn:HZ; [left; apply ZE; auto|]. right. intros EN. apply AP. split; auto. intros H. apply ZE' in H. discriminate.
  - unfold addPattern, build. cbn [bind]. apply ZE in RK. split; auto. split; [tauto|]. split; auto. split; [discriminate|auto].
Qed.

Section Searching.
Variables (ks : list (encoder * pnode)) (rs : list (option N)) (P : program) (fuel : nat).
Hypothesis C : created sort sort_len ks rs P.
Hypothesis HV : 2 * length (p_words P) <= fuel.
Notation stream_calls off cs := (chunk_calls off cs ++ [CClose true]).

(** C02, C10.  Every hit is a text of the pattern as it was parsed. *)
Theorem searched_no_false_hits_parsed cs off hits vs h : (off + N.of_nat (length (concat cs)) < two64)%N -> bytes (concat cs) ->
  session fuel P (stream_calls off cs) = Ok (hits, vs) -> In h hits ->
  exists j e t', nth_error ks j = Some (e, t') /\ nth_error rs j = Some (Some (h_label h)) /\
    forall text t, parsed text t -> reduce text (Some t) = Ok (Some t') -> PatSpec.lang (enc_atom e) t (slice (concat cs) off (h_start h) (h_end h)).
Proof.
  intros Ho Hb E Hh. destruct (searched_no_false_hits sort sort_len sort_perm sort_len_perm sort_len_sorted ks rs P fuel C HV cs off hits vs h Ho Hb E Hh) as (j & e & t' & Ek & Er & _ & _ & HL).
  exists j, e, t'. split; auto. split; auto. intros text t PA R. eapply reduce_adds_nothing; eauto; apply PA.
Qed.

(** C35, C42.  The hits of a keyword are the ones a backtracking matcher chooses with the pattern as it
    was parsed.  Missing: the patterns without the conditions of reduce_choice_partial (Thm_Rewrite.v)
    and searched_hits_chosen_partial (Thm_Pipe.v). *)
Theorem searched_hits_chosen_parsed_partial am text t cs off hits vs j e t' l : (off + N.of_nat (length (concat cs)) < two64)%N -> bytes (concat cs) ->
  session fuel P (stream_calls off cs) = Ok (hits, vs) -> nth_error ks j = Some (e, t') -> nth_error rs j = Some (Some l) ->
  parsed text t -> reduce text (Some t) = Ok (Some t') -> calm t -> empty_branch_last t -> joins_plain (fst (makeBinopsRightAssociative t)) ->
  leaves_of e am t -> (forall a, In a (atoms t) -> single_step (am a)) -> branches_distinct sort sort_len e t' -> firm_loops t' -> tail_ok t' ->
  leftmost (fun s => let w := skipn (N.to_nat (s - off)) (concat cs) in
                     map (fun r => (s + N.of_nat (length w) - N.of_nat (length r))%N) (opt_list (chosen am t w)))
           (off + N.of_nat (length (concat cs)))%N off (hits_of l hits).
Proof.
  intros Ho Hb E Ek Er PA R CA EB JP LO SS BD FL TO. destruct (parsed_buildable text t t' PA R) as (B & AT).
  assert (TK : tree_ok t) by (split; auto; apply PA).
  assert (X : forall w, chosen am t w = chosen am t' w) by (intros w; symmetry; apply (reduce_choice_leaves am text t t' TK SS JP (pa_zero _ _ PA) R)).
  eapply leftmost_hd; [|eapply (searched_hits_chosen_partial sort sort_len sort_perm sort_len_perm sort_len_sorted ks rs P fuel C HV am cs off hits vs j e t' l); eauto].
  - intros s. cbn beta zeta. rewrite X. auto.
  - intros a Ha. apply LO, AT, Ha.
  - intros a Ha p q H1 H2. apply AT in Ha. pose proof (LO a Ha (p ++ q)) as K. pose proof (proj2 (K q) (ex_intro _ p (conj eq_refl H1))) as K1.
    pose proof (proj2 (K []) (ex_intro _ (p ++ q) (conj (eq_sym (app_nil_r _)) H2))) as K2. destruct (SS a Ha (p ++ q)) as [E0|(r & E0 & _)]; rewrite E0 in K1, K2.
    + destruct K1.
    + destruct K1 as [K1|[]], K2 as [K2|[]]. congruence.
Qed.
End Searching.
End Statements.

(** * Cases

    The letters a, b, ... stand for the bytes 1, 2, ..., as in Thm_Pipe.v. *)
Local Notation A := (EBase ASCII).
Local Notation add := (add_parsed no_sort sort_by_len 2000 A [v_new]).

(** `(b|c)ad??e{0}` is accepted, as `(b|c)a`; `(b??|c)d{0}` is refused, as is a look-ahead. *)
Definition ap_text1 : list N := [40; 2; 124; 3; 41; 1; 4; 63; 63; 5; 123; 48; 125]%N.
Definition ap_1 : pnode := PCat (PCat (PCat (PAlt (ch 2) (ch 3)) (ch 1)) (PRep false (ch 4) 0 1)) (PRep true (ch 5) 0 0).
Definition ap_r : pnode := PCat (PAlt (ch 2) (ch 3)) (ch 1).
Definition ap_text2 : list N := [40; 2; 63; 63; 124; 3; 41; 4; 123; 48; 125]%N.
Definition ap_2 : pnode := PCat (PAlt (PRep false (ch 2) 0 1) (ch 3)) (PRep true (ch 4) 0 0).

Lemma ap_parsed : parsed ap_text1 ap_1 /\ parsed ap_text2 ap_2.
Proof.
  split; (split; [simpl; unfold UNBOUNDED, two32; repeat split; lia|reflexivity| |vm_compute; discriminate]);
    intros a Ha; vm_compute in Ha; repeat destruct Ha as [<-|Ha]; try destruct Ha; exact I.
Qed.

Example ap_added : (exists g, add ap_text1 ap_1 0 = Ok g) /\ add ap_text2 ap_2 0 = Throw /\ add [] (PLook 0 (ch 2)) 0 = Throw /\
  (exists t', reduce ap_text1 (Some ap_1) = Ok (Some t') /\ t' = ap_r) /\ PatSpec.lang (enc_atom A) ap_2 [].
Proof.
  split; [eexists; vm_compute; reflexivity|]. split; [vm_compute; reflexivity|]. split; [reflexivity|]. split; [eexists; split; vm_compute; reflexivity|].
  apply zero_length_exact; [apply enc_atom_nonempty; exact I|apply (pa_bounds _ _ (proj2 ap_parsed))|reflexivity].
Qed.

(** C32.  A leaf without encoding does not always lead to refusal: `xé??` is accepted in ASCII, since it
    is rewritten to `x`. *)
Theorem unencodable_leaf_refuted : exists text t g, parsed text t /\ (exists a, In a (atoms t) /\ forall w, ~ enc_atom A a w) /\ add text t 0 = Ok g.
Proof.
  exists [24; 195; 169; 63; 63]%N, (PCat (ch 24) (PRep false (ch 233) 0 1)). eexists. split; [|split; [|vm_compute; reflexivity]].
  - split; [simpl; unfold UNBOUNDED, two32; repeat split; lia|reflexivity| |].
    + intros a [<-|[<-|[]]]; exact I.
    + intros _. simpl. split; auto. split; auto. right. discriminate.
  - exists (ALit 233). split; [right; left; auto|]. intros w H. apply encodes_iff in H; [|exact I]. destruct H as (<- & H). apply H. reflexivity.
Qed.

(** A program made from `(b|c)ad??e{0}` and `(b|c)d?e` *)
Definition ap_ks : list (encoder * pnode) := [(A, ap_r); (A, ex_1)].
Definition ap_prog (depth : N) : program := match (' (g, rs) <- add_all 2000 [v_new] 0 (map (fun k => (factory_enc no_sort sort_by_len (fst k), Some (snd k))) ap_ks) ;; gf <- finalizeGraph 100 false depth g ;; createProgram 9 100 gf) with
  Ok P => P | _ => {| p_words := []; p_maxLabel := 0; p_maxCheck := 0; p_filterOff := 0; p_filter := 0 |} end.
Definition ap_P : program := ap_prog 4294967295.

Lemma ap_keywords : keywords_ok ap_ks.
Proof.
  split; [|vm_compute; discriminate]. intros e t [[= <- <-]|[[= <- <-]|[]]]; (split; [exact I|]); easy_ok; intros a Ha; vm_compute in Ha; repeat destruct Ha as [<-|Ha]; try destruct Ha; exact I.
Qed.

Lemma ap_created depth : depth = 4294967295%N -> created no_sort sort_by_len ap_ks [Some 0%N; Some 1%N] (ap_prog depth).
Proof.
  intros HD. assert (HF : keywords_fuel no_sort sort_by_len ap_ks <= 2000) by (apply Nat.leb_le; vm_compute; reflexivity).
  assert (X : exists g, add_all 2000 [v_new] 0 (map (fun k => (factory_enc no_sort sort_by_len (fst k), Some (snd k))) ap_ks) = Ok (g, [Some 0%N; Some 1%N])) by (eexists; vm_compute; reflexivity). destruct X as (g & EA).
  assert (X : exists gf, finalizeGraph 100 false depth g = Ok gf /\ 2 <= length (nodup Nat.eq_dec (outs gf 0)) /\ fits32 gf /\ succeeded (createProgram 9 100 gf) = true).
  { vm_compute in EA. injection EA as <-. rewrite HD. eexists. split; [vm_compute; reflexivity|]. split; [apply Nat.leb_le; vm_compute; reflexivity|]. split.
    - vm_compute; reflexivity.
    - vm_compute. reflexivity. }
  destruct X as (gf & EF & Z & F32 & CS).
  assert (CP : createProgram 9 100 gf = Ok (ap_prog depth)).
  { unfold ap_prog. rewrite EA. cbn [bind]. rewrite EF. cbn [bind]. destruct (createProgram 9 100 gf); [reflexivity|discriminate CS..]. }
  exists 2000, 100, 9, 100, false, depth, g, gf. split; [exact ap_keywords|]. split; auto. split; auto. split; auto. split; auto. apply two_roots. auto.
Qed.

Example ap_searched : 2 * length (p_words ap_P) <= 400 /\
  session 400 ap_P (chunk_calls 5 [[2; 4]; [5; 3; 1]]%N ++ [CClose true]) =
    Ok ([{| h_start := 5; h_end := 8; h_label := 1 |}; {| h_start := 8; h_end := 10; h_label := 0 |}], [5; 10; 0]%N) /\
  reduce ap_text1 (Some ap_1) = Ok (Some ap_r) /\ calm ap_1 /\ empty_branch_last ap_1 /\ joins_plain (fst (makeBinopsRightAssociative ap_1)) /\
  leaves_of A lit ap_1 /\ branches_distinct no_sort sort_by_len A ap_r /\ firm_loops ap_r /\ tail_ok ap_r.
Proof.
  split; [apply Nat.leb_le; vm_compute; reflexivity|]. split; [vm_compute; reflexivity|]. split; [vm_compute; reflexivity|]. split; [simpl; auto|]. split; [vm_compute; intuition (auto; congruence)|].
  split; [vm_compute; intuition (auto; congruence)|]. split; [apply ascii_leaves; intros a Ha; vm_compute in Ha; repeat destruct Ha as [<-|Ha]; try destruct Ha; eexists; split; try reflexivity; lia|].
  split; [|split; [simpl; auto|vm_compute; intuition (auto; congruence)]].
  assert (X : exists g, build (factory_enc no_sort sort_by_len A) 0 (Some ap_r) = Ok (Some g)) by (eexists; vm_compute; reflexivity). destruct X as (g & E).
  exists 0%N, g. split; [reflexivity|]. split; auto. vm_compute in E. injection E as <-. apply distinct_b_sound. vm_compute. reflexivity.
Qed.

Print Assumptions refused_exactly.
Print Assumptions searched_no_false_hits_parsed.
Print Assumptions searched_hits_chosen_parsed_partial.
Print Assumptions unencodable_leaf_refuted.
