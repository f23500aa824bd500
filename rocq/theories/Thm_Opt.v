(** Theorems about the optimizer, for automata of any keywords: pruning, merging a new keyword into
    the automaton, marking guard states.  [fsm_ok] and [fsm_inv] (OptSpec.v, OptLive.v) say what the
    automata made from patterns are like; Thm_Pipe.v shows that they are. *)
From Verif Require Import Base NfaModel VmModel CodegenSpec Thm_Codegen ByteSetModel EncModel PatModel PatSpec BuildModel BuildProofs BuildTree Thm_Build
  OptModel OptSpec OptPrune OptMerge OptMergeLang OptMergeBest OptLive OptGuard OptZero OptPipe OptGroups OptSubset OptSubsetSem OptFinal Thm_Pipe.
Open Scope nat_scope.

(** C34.  Pruning: what the automaton of one keyword prefers stays the same for each text, and it
    accepts nothing it did not accept before. *)
Theorem pruning_keeps_preference g label : fsm_ok g -> labels_in g (fun l => l = label) ->
  exists g', pruneBranches (length g) g = Ok g' /\ fsm_ok g' /\
    (forall w pos, best g' label NOLABEL w 0 pos = best g label NOLABEL w 0 pos) /\
    (forall w, matches g' label w -> matches g label w) /\
    (forall w, matches g label w -> exists k, k <= length w /\ matches g' label (firstn k w)).
Proof.
  intros F LI. destruct (prune_spec g (length g) F (le_n _)) as (g' & E & F' & _). exists g'. split; auto. split; auto.
  assert (B : forall w pos, best g' label NOLABEL w 0 pos = best g label NOLABEL w 0 pos) by (intros w pos; apply (prune_best g (length g) g' label F LI E (le_n _))).
  split; auto. split.
  - intros w. apply (prune_accepts g (length g) g' label F E (le_n _)).
  - intros w M. apply (OptPipe.accepts_best g label w NOLABEL 0 0%N) in M. rewrite <- B in M. destruct (best g' label NOLABEL w 0 0) as [p|] eqn:Eb; [|congruence].
    apply best_accepts in Eb as (k & _ & Hk & Ha). exists k. auto.
Qed.

(** C33.  Merging: the texts of the new keyword are those of the automaton merged in, those of the
    others are what they were, and so is what is preferred for these. *)
Theorem merging_keeps_keywords dst src label L : fsm_inv dst L -> fsm_ok src -> live src -> labels_in src (fun l => l = label) -> ~ L label -> label <> NOLABEL ->
  exists g, mergeIntoFSM (merge_fuel src) dst src = Ok g /\ fsm_inv g (fun l => L l \/ l = label) /\
    (forall w, matches g label w <-> matches src label w) /\
    (forall l w, l <> label -> (matches g l w <-> matches dst l w)) /\
    (forall l w pos, l <> label -> best g l NOLABEL w 0 pos = best dst l NOLABEL w 0 pos).
Proof.
  intros I F LV LI NL LN. destruct (merge_inv dst src label L (merge_fuel src) I F LI LV NL LN (le_n _)) as (g & E & IG).
  assert (FR : forall v, lbl dst v <> label) by (intros v X; destruct (fi_labels _ _ I v) as [Y|Y]; congruence).
  destruct (merge_language dst src label (merge_fuel src) (fi_ok _ _ I) F (fi_reach _ _ I) LI FR LN (le_n _)) as (g' & E' & _ & _ & _ & _ & LM & BM).
  rewrite E in E'. injection E' as <-. exists g. split; auto. split; auto. split; [|split; auto].
  - intros w. rewrite LM. split; [intros [(H & _)|(_ & H)]; [congruence|auto]|auto].
  - intros l w Hl. rewrite LM. split; [intros [(_ & H)|(H & _)]; [auto|congruence]|auto].
Qed.

(** C42.  Merging keeps what the new keyword prefers too, if it has no two states that look alike
    next to each other. *)
Theorem merging_keeps_preference_partial dst src label L : fsm_inv dst L -> fsm_ok src -> labels_in src (fun l => l = label) -> ~ L label -> label <> NOLABEL ->
  no_twins src -> no_parallel src ->
  exists g, mergeIntoFSM (merge_fuel src) dst src = Ok g /\ forall w pos, best g label NOLABEL w 0 pos = best src label NOLABEL w 0 pos.
Proof.
  intros I F LI NL LN NT NP. assert (FR : forall v, lbl dst v <> label) by (intros v X; destruct (fi_labels _ _ I v) as [Y|Y]; congruence).
  destruct (merge_best dst src label (merge_fuel src) (fi_ok _ _ I) F (fi_reach _ _ I) LI FR LN (le_n _) NT NP (fi_nodup _ _ I)) as (g & E & _ & B). eauto.
Qed.

(** C34.  Marking guard states ends, changes labels only, and keeps every keyword; the result meets
    what the code generator needs. *)
Theorem guards_keep_keywords g L : fsm_inv g L -> (forall l, L l -> (l < UNLABELABLE)%N) -> 2 <= length g ->
  exists g' K, labelGuardStates (guard_fuel g) g = Ok g' /\ good0 g' K /\ length g' = length g /\
    (forall v x, nth_error g v = Some x -> exists l, nth_error g' v = Some (mkV (v_trans x) (v_match x) l (v_out x) (v_in x))) /\
    (forall l w pos, best g' l NOLABEL w 0 pos = best g l NOLABEL w 0 pos) /\ (forall l w, matches g' l w <-> matches g l w).
Proof.
  intros I HL N2. destruct (guard_spec g L (inv_core _ _ I) HL (guard_fuel g) (le_n _) N2) as (g' & K & E & G & LE & SH & B & M). exists g', K. split; auto. split; auto. split; auto. split; [|split; auto].
  intros v x Ex. destruct (SH v x Ex) as (l & El & _). eauto.
Qed.

(** C34.  Determinizing ends, whatever the depth, and keeps every keyword: what it matches and, for each
    text, what it prefers.  If the result is within the depth, it repeats no edge. *)
Theorem determinization_keeps_keywords g L depth : fsm_inv g L -> outs g 0 <> [] ->
  exists g', (forall F, subset_fuel g <= F -> subsetDFA F g depth = Ok g') /\ fsm_ok g' /\
    (forall l w, matches g' l w <-> matches g l w) /\ (forall l w pos, best g' l NOLABEL w 0 pos = best g l NOLABEL w 0 pos) /\
    ((N.of_nat (length g') <= depth)%N -> no_parallel g').
Proof.
  intros I NE. destruct (subset_spec g depth L (subset_fuel g) (inv_core _ _ I) NE (le_n _)) as (g' & E & C & _ & S & ND). exists g'.
  split; [intros F HF; eapply subset_mono; eauto|]. split; [apply (fc_ok _ _ C)|]. split; [intros l; apply (S l)|]. split; [intros l; apply (S l)|auto].
Qed.

(** C34, C45.  All passes of finalizeGraph together, for any depth; and the result does not depend on
    how many steps are allowed. *)
Theorem finalizing_keeps_keywords g n det depth : fsm_inv g (fun l => (l < N.of_nat n)%N) -> (N.of_nat n <= UNLABELABLE)%N -> outs g 0 <> [] ->
  exists g' K F0, (forall F, F0 <= F -> finalizeGraph F det depth g = Ok g') /\ (forall F g2, finalizeGraph F det depth g = Ok g2 -> g2 = g') /\ good0 g' K /\
    (forall l w, matches g' l w <-> matches g l w) /\ (forall l w pos, best g' l NOLABEL w 0 pos = best g l NOLABEL w 0 pos).
Proof.
  intros I HN NE. destruct (finalize_any g n det depth I HN NE) as (g' & K & F0 & E & G & _ & S & _). exists g', K, F0. split; auto. split; [|split; auto; split; intros l; apply (S l)].
  intros F g2 E2. specialize (E (Nat.max F0 F) (Nat.le_max_l _ _)). rewrite (finalize_mono F (Nat.max F0 F) det depth g g2 (Nat.le_max_r _ _) E2) in E. congruence.
Qed.

(** * Cases: `ab|ac*d` (keyword 0) and `a(b|cd)` (keyword 1) *)
Local Notation fenc := (factory_enc no_sort sort_by_len (EBase ASCII)).
Definition op_t : pnode := PAlt (PCat (ch 97) (ch 98)) (PCat (ch 97) (PCat (PRep true (ch 99) 0 UNBOUNDED) (ch 100))).
Definition op_t2 : pnode := PCat (ch 97) (PAlt (ch 98) (PCat (ch 99) (ch 100))).

Lemma op_src t l : buildable t -> (l < NOLABEL)%N -> forall g, build fenc l (Some t) = Ok (Some g) -> fsm_ok g /\ labels_in g (fun x => x = l) /\ live g.
Proof.
  intros B HL g E. pose proof (build_spec fenc l t _ _ (tree_builds no_sort sort_by_len no_sort_perm by_len_perm by_len_sorted (EBase ASCII) I t B)) as BS. rewrite E in BS.
  destruct BS as (_ & _ & gb & f & _ & BU & _). apply (built_fsm gb f l g BU HL).
Qed.

Lemma op_ok : buildable op_t /\ buildable op_t2.
Proof.
  split; (split; try (vm_compute; reflexivity); try (simpl; unfold UNBOUNDED, two32; repeat split; try lia)); intros a Ha; vm_compute in Ha; repeat destruct Ha as [<-|Ha]; try destruct Ha; exact I.
Qed.

Example op_prune : exists g g', build fenc 0 (Some op_t) = Ok (Some g) /\ fsm_ok g /\ labels_in g (fun l => l = 0%N) /\ pruneBranches (length g) g = Ok g' /\
  matches g' 0 [97; 99; 100]%N.
Proof.
  destruct (build fenc 0 (Some op_t)) as [[g|]| | |] eqn:E; try (vm_compute in E; discriminate).
  destruct (op_src op_t 0 (proj1 op_ok) eq_refl g E) as (F & LI & _). destruct (pruning_keeps_preference g 0 F LI) as (g' & EP & _). exists g, g'. split; auto. split; auto. split; auto. split; auto.
  vm_compute in E. injection E as <-. vm_compute in EP. injection EP as <-.
  eapply acc_step with (c := 3); [reflexivity|vm_compute; auto|reflexivity|]. eapply acc_step with (c := 4); [reflexivity|vm_compute; auto|reflexivity|].
  eapply acc_step with (c := 5); [reflexivity|vm_compute; auto|reflexivity|]. eapply acc_match; reflexivity.
Qed.

(** After `ab|ac*d` was added, merging in `a(b|cd)` and then marking *)
Example op_merge : exists dst src g g', addPattern 2000 fenc [v_new] (Some op_t) 0 = Ok dst /\ fsm_inv dst (fun l => l = 0%N) /\ build fenc 1 (Some op_t2) = Ok (Some src) /\ fsm_ok src /\ live src /\
  labels_in src (fun l => l = 1%N) /\ mergeIntoFSM (merge_fuel src) dst src = Ok g /\ labelGuardStates (guard_fuel g) g = Ok g' /\ length src = 5 /\ length dst = 5 /\ length g = 8 /\ no_twins src /\ no_parallel src /\
  matches g' 0 [97; 98]%N /\ matches g' 1 [97; 99; 100]%N.
Proof.
  pose proof (add_pattern no_sort sort_by_len no_sort_perm by_len_perm by_len_sorted (EBase ASCII) op_t [v_new] 0%N (fun _ => False) 2000 I (proj1 op_ok) empty_inv (fun H => H) eq_refl) as AP.
  assert (HF : pattern_fuel fenc op_t 0 <= 2000) by (apply Nat.leb_le; vm_compute; reflexivity). specialize (AP HF).
  destruct (addPattern 2000 fenc [v_new] (Some op_t) 0) as [dst| | |] eqn:EA; try (vm_compute in EA; discriminate).
  assert (ID : fsm_inv dst (fun l => l = 0%N)) by (apply inv_ext with (2 := proj1 (proj2 AP)); simpl; tauto). clear AP HF.
  assert (X : exists src, build fenc 1 (Some op_t2) = Ok (Some src)) by (eexists; vm_compute; reflexivity). destruct X as (src & E).
  destruct (op_src op_t2 1 (proj2 op_ok) eq_refl src E) as (F & LI & LV).
  destruct (merging_keeps_keywords dst src 1 _ ID F LV LI) as (g & EM & IG & _); [discriminate|discriminate|].
  destruct (guards_keep_keywords g _ IG) as (g' & K & EG & _).
  { intros l [-> | ->]; reflexivity. }
  { vm_compute in EA. injection EA as <-. vm_compute in E. injection E as <-. vm_compute in EM. injection EM as <-. simpl. lia. }
  exists dst, src, g, g'. split; [reflexivity|]. do 7 (split; [assumption|]).
  clear ID F LI LV IG. vm_compute in EA. injection EA as <-. vm_compute in E. injection E as <-. vm_compute in EM. injection EM as <-. vm_compute in EG. injection EG as <-.
  split; [reflexivity|]. split; [reflexivity|]. split; [reflexivity|].
  match goal with |- no_twins ?s /\ _ => assert (D : distinct_branches s) by (apply distinct_b_sound; vm_compute; reflexivity) end.
  split; [intros h c c' Hc Hc' _ _ Eb El; eapply (proj1 D); eauto|]. split; [apply D|]. split.
  - eapply acc_step with (c := 1); [reflexivity|vm_compute; auto|reflexivity|]. eapply acc_step with (c := 2); [reflexivity|vm_compute; auto|reflexivity|]. eapply acc_match; reflexivity.
  - eapply acc_step with (c := 1); [reflexivity|vm_compute; auto|reflexivity|]. eapply acc_step with (c := 6); [reflexivity|vm_compute; auto 9|reflexivity|].
    eapply acc_step with (c := 7); [reflexivity|vm_compute; auto|reflexivity|]. eapply acc_match; reflexivity.
Qed.

(** The same two keywords determinized: without a limit, and with one that leaves part of the
    automaton as it was, copied. *)
Example op_det : exists g, add_all 2000 [v_new] 0 [(fenc, Some op_t); (fenc, Some op_t2)] = Ok (g, [Some 0%N; Some 1%N]) /\ fsm_inv g (fun l => (l < N.of_nat 2)%N) /\ outs g 0 <> [] /\
  exists g1 g2, subsetDFA 100 g 4294967295 = Ok g1 /\ subsetDFA 100 g 3 = Ok g2 /\ length g = 8 /\ map v_out g1 <> map v_out g /\ length g1 = 8 /\ length g2 = 10 /\
  matches g1 0 [97; 99; 99; 100]%N /\ matches g2 0 [97; 99; 99; 100]%N.
Proof.
  assert (HK : keywords_ok [(EBase ASCII, op_t); (EBase ASCII, op_t2)]).
  { split; [|vm_compute; discriminate]. intros e t [[= <- <-]|[[= <- <-]|[]]]; (split; [exact I|]); apply op_ok. }
  destruct (added_all no_sort sort_by_len no_sort_perm by_len_perm by_len_sorted _ 2000 HK) as (g & rs & E & _ & IV & _ & _ & NE & _); [apply Nat.leb_le; vm_compute; reflexivity|].
  assert (ER : rs = [Some 0%N; Some 1%N]) by (vm_compute in E; injection E as <- <-; reflexivity). subst rs.
  exists g. split; [exact E|]. split; [exact IV|]. split; [apply NE; discriminate|]. clear IV NE HK. vm_compute in E. injection E as <-.
  do 2 eexists. split; [vm_compute; reflexivity|]. split; [vm_compute; reflexivity|].
  split; [reflexivity|]. split; [vm_compute; discriminate|]. split; [reflexivity|]. split; [reflexivity|]. split.
  - eapply acc_step with (c := 1); [reflexivity|vm_compute; auto|reflexivity|]. eapply acc_step with (c := 4); [reflexivity|vm_compute; auto 9|reflexivity|].
    eapply acc_step with (c := 6); [reflexivity|vm_compute; auto 9|reflexivity|]. eapply acc_step with (c := 5); [reflexivity|vm_compute; auto 9|reflexivity|]. eapply acc_match; reflexivity.
  - eapply acc_step with (c := 1); [reflexivity|vm_compute; auto|reflexivity|]. eapply acc_step with (c := 4); [reflexivity|vm_compute; auto 9|reflexivity|].
    eapply acc_step with (c := 6); [reflexivity|vm_compute; auto 9|reflexivity|]. eapply acc_step with (c := 9); [reflexivity|vm_compute; auto 9|reflexivity|]. eapply acc_match; reflexivity.
Qed.

Print Assumptions determinization_keeps_keywords.
Print Assumptions finalizing_keeps_keywords.
Print Assumptions pruning_keeps_preference.
Print Assumptions merging_keeps_keywords.
Print Assumptions merging_keeps_preference_partial.
Print Assumptions guards_keep_keywords.
