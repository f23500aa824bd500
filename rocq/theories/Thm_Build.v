(** C31, C32, C42: the automaton built for a pattern accepts just what the pattern matches, building
    fails just for patterns that can match nothing or hold a leaf that cannot be encoded, and the
    automaton prefers the match a backtracking matcher would choose, unless the end of the pattern
    prefers stopping to going on.

    [lang] and [ways] (PatSpec.v) are the meaning of a pattern given that of its leaves; [enc_atom]
    (BuildEnc.v) is what the leaves mean in an encoding, [encodes] (Thm_Enc.v) what an encoding is. *)
From Coq Require Import List NArith ZArith Bool Lia PeanoNat Sorting.Permutation Sorting.Sorted.
From Verif Require Import Base VmModel NfaModel CodegenSpec Thm_Codegen RangeSetModel RangeSetProofs ByteSetModel ByteSetProofs EncModel EncProofs Thm_Enc
  PatModel PatSpec RewriteProofs Thm_Rewrite BuildModel BuildSpec BuildProofs BuildTree BuildTail BuildEnc ReduceBuild.
Import ListNotations.
Open Scope nat_scope.

Section Statements.
(** std::sort as used by the encoders: rows of one length by their bytes, and rows by length *)
Variable sort : nat -> nat -> list (list bset) -> list (list bset).
Variable sort_len : list (list bset) -> list (list bset).
Hypothesis sort_perm : forall a b l, Permutation l (sort a b l).
Hypothesis sort_len_perm : forall l, Permutation l (sort_len l).
Hypothesis sort_len_sorted : forall l, StronglySorted (fun a b => length a <= length b) (sort_len l).

(** The encoder the builder is given. *)
Definition factory_enc (e : encoder) : enc_if := enc_of e (factory_rows sort sort_len e).

(** What the parser hands to the builder. *)
Record buildable (t : pnode) : Prop := {
  bd_look : has_look t = false;
  bd_bounds : bounds_ok t;
  bd_zero : no_zero t;
  bd_atoms : forall a, In a (atoms t) -> atom_ok a
}.

Lemma lang_ext A A' t : (forall a, In a (atoms t) -> forall w, A a w <-> A' a w) -> forall w, PatSpec.lang A t w <-> PatSpec.lang A' t w.
Proof.
  induction t as [k t IH|l IHl r IHr|l IHl r IHr|gr t IH mn mx|a]; intros H w; cbn [PatSpec.lang atoms] in *.
  - tauto.
  - rewrite IHl, IHr by (intros; apply H; apply in_or_app; auto). tauto.
  - split; intros (u & v & E & H1 & H2); exists u, v; split; auto; split; (apply IHl + apply IHr); auto; intros; apply H; apply in_or_app; auto.
  - assert (P : forall n w, pow (PatSpec.lang A t) n w <-> pow (PatSpec.lang A' t) n w).
    { induction n as [|n IHn]; intros w'; cbn [pow]; [tauto|]. split; intros (u & v & E & H1 & H2); exists u, v; split; auto; split; try (apply IHn; auto); apply (IH H); auto. }
    split; intros (n & Hn & Hp); exists n; split; auto; apply P; auto.
  - apply H. left; auto.
Qed.

Lemma app_prefix {A} : forall (p p' r r' : list A), p ++ r = p' ++ r' -> (exists q, p' = p ++ q) \/ (exists q, p = p' ++ q).
Proof.
  induction p as [|x p IH]; intros p' r r' E; [left; exists p'; auto|]. destruct p' as [|y p']; [right; exists (x :: p); auto|].
  injection E as -> E. destruct (IH _ _ _ E) as [(q & ->)|(q & ->)]; [left|right]; exists q; auto.
Qed.

Section OneEncoder.
Variable e : encoder.
Hypothesis OK : enc_ok e.
Let ws := factory_rows sort sort_len e.
Let HW : writes_sets e ws := factory_writes sort sort_len sort_perm sort_len_perm sort_len_sorted e OK.

Lemma leaf_lang t : buildable t -> forall w, PatSpec.lang (row_atom e ws) t w <-> PatSpec.lang (enc_atom e) t w.
Proof. intros B. apply lang_ext. intros a Ha w. apply (row_atom_spec e ws OK HW). apply B; auto. Qed.

Lemma tree_builds t : buildable t -> builds (build_tree (factory_enc e) t) (tries (atom_rests e ws) t) (some_throws (atom_none e ws) t).
Proof. intros [B1 B2 B3 B4]. apply build_tree_spec; auto. intros a Ha. apply (atom_builds e ws OK HW). auto. Qed.

(** * C31 *)
Theorem automaton_language t label g : buildable t -> (label < NOLABEL)%N -> build (factory_enc e) label (Some t) = Ok (Some g) ->
  forall l w, matches g l w <-> l = label /\ PatSpec.lang (enc_atom e) t w.
Proof.
  intros B HL E l w. pose proof (build_spec (factory_enc e) label t _ _ (tree_builds t B)) as S. rewrite E in S. destruct S as (_ & _ & g0 & f & _ & BU & W).
  rewrite (built_matches g0 f label g BU HL l w []). rewrite (oeq_in _ _ (W (w ++ []))).
  rewrite (tries_lang (row_atom e ws) (atom_rests e ws) t (row_leaves e ws) (row_nonempty e ws) (bd_bounds _ B)).
  rewrite <- (leaf_lang t B). rewrite app_nil_r. split; intros (-> & H); split; auto.
  - destruct H as (p & E' & H). rewrite app_nil_r in E'. congruence.
  - exists w. rewrite app_nil_r. auto.
Qed.

(** * C32 *)

(** Building succeeds, finds that the empty string is matched, or throws; nothing else can happen. *)
Theorem build_outcome t label : buildable t ->
  match build (factory_enc e) label (Some t) with
  | Ok (Some _) => (forall a, In a (atoms t) -> exists w, enc_atom e a w) /\ ~ PatSpec.lang (enc_atom e) t []
  | Ok None => (forall a, In a (atoms t) -> exists w, enc_atom e a w) /\ PatSpec.lang (enc_atom e) t []
  | Throw => exists a, In a (atoms t) /\ forall w, ~ enc_atom e a w
  | UB | Fuel => False
  end.
Proof.
  intros B. pose proof (build_spec (factory_enc e) label t _ _ (tree_builds t B)) as S.
  assert (T : some_throws (atom_none e ws) t <-> exists a, In a (atoms t) /\ forall w, ~ enc_atom e a w).
  { split; intros (a & Ha & H); exists a; split; auto; apply (atom_none_spec e ws OK HW a (bd_atoms _ B a Ha)); auto. }
  assert (NT : ~ some_throws (atom_none e ws) t -> forall a, In a (atoms t) -> exists w, enc_atom e a w).
  { intros H a Ha. destruct (atom_rows e ws a) as [|row rows] eqn:Er; [exfalso; apply H; exists a; auto|].
    apply (atom_some e ws OK HW a (bd_atoms _ B a Ha)). intros Y. unfold atom_none in Y. congruence. }
  assert (N : In [] (tries (atom_rests e ws) t []) <-> PatSpec.lang (enc_atom e) t []).
  { rewrite (tries_lang (row_atom e ws) (atom_rests e ws) t (row_leaves e ws) (row_nonempty e ws) (bd_bounds _ B)). rewrite <- (leaf_lang t B). split.
    - intros (p & E' & H). symmetry in E'. apply app_eq_nil in E' as (-> & _). auto.
    - intros H. exists []. auto. }
  destruct (build (factory_enc e) label (Some t)) as [[g|]| | |]; try tauto.
Qed.

(** A pattern without an automaton: one that can match the empty string, or one with a leaf that
    has no encoding. *)
Theorem build_fails_exactly t label : buildable t ->
  ((exists g, build (factory_enc e) label (Some t) = Ok (Some g)) <->
   ~ PatSpec.lang (enc_atom e) t [] /\ forall a, In a (atoms t) -> exists w, enc_atom e a w).
Proof.
  intros B. pose proof (build_outcome t label B) as H. destruct (build (factory_enc e) label (Some t)) as [[g|]| | |]; try tauto.
  - split; [tauto|eauto].
  - split; [intros (g & [=])|tauto].
  - split; [intros (g & [=])|]. intros (_ & K). destruct H as (a & Ha & H). destruct (K a Ha) as (w & Hw). exfalso. eapply H; eauto.
Qed.

(** * C42 *)

(** No match of a leaf is the beginning of another match of the same leaf. *)
Definition prefix_free (a : atom) : Prop := forall p q, enc_atom e a p -> enc_atom e a (p ++ q) -> q = [].

(** [am] lists, for the leaves of [t], what is left of a text behind a match of the leaf. *)
Definition leaves_of (am : atom -> word -> list word) (t : pnode) : Prop :=
  forall a, In a (atoms t) -> forall w r, In r (am a w) <-> exists p, w = p ++ r /\ enc_atom e a p.

Lemma enc_atom_nonempty : leaves_nonempty (enc_atom e).
Proof.
  intros a. assert (N : forall cp, ~ encodes e cp []) by (intros cp H; apply (encodes_iff e OK) in H; tauto).
  destruct a as [|c b []|cp|b]; cbn [enc_atom].
  - intros (cp & _ & H). eapply N; eauto.
  - intros [(cp & _ & H)|(x & [=] & _)]. eapply N; eauto.
  - intros ((cp & _ & H) & _). eapply N; eauto.
  - apply N.
  - discriminate.
Qed.

Lemma prefix_free_rests am t a : In a (atoms t) -> atom_ok a -> leaves_of am t -> prefix_free a -> forall w, oeq (atom_rests e ws a w) (am a w).
Proof.
  intros HI HA HL PF w. pose proof (HL a HI w) as HLa. clear HL.
  assert (U : forall r r', In r (am a w) -> In r' (am a w) -> r = r').
  { intros r r' H H'. apply HLa in H as (p & E1 & Hp). apply HLa in H' as (p' & E & Hp'). rewrite E1 in E.
    assert (G : forall p q r r', p ++ r = (p ++ q) ++ r' -> enc_atom e a p -> enc_atom e a (p ++ q) -> r = r').
    { intros p0 q r0 r0' E0 H1 H2. rewrite (PF p0 q H1 H2) in E0. rewrite app_nil_r in E0. apply app_inv_head in E0. auto. }
    destruct (app_prefix _ _ _ _ E) as [(q & ->)|(q & ->)]; [eapply G; eauto|symmetry; eapply G; eauto]. }
  assert (S : forall r, In r (atom_rests e ws a w) <-> In r (am a w)).
  { intros r. rewrite (row_leaves e ws a w r), (HLa r). split.
    - intros (p & E & Hn & H). exists p; split; auto. apply (row_atom_spec e ws OK HW a HA); auto.
    - intros (p & E & H). exists p; split; auto. split; [intros ->; apply (enc_atom_nonempty a H)|]. apply (row_atom_spec e ws OK HW a HA); auto. }
  assert (C : forall l m : list word, (forall r, In r l <-> In r m) -> (forall r r', In r m -> In r' m -> r = r') -> oeq l m).
  { clear. intros l m HS HU.
    assert (O : forall (l : list word) (x : word), (forall r, In r l -> r = x) -> l <> [] -> oeq l [x]).
    { induction l0 as [|y l0 IH]; intros x H Hne; [congruence|]. rewrite (H y) by (left; auto).
      pose proof (oeq_absorb [x] l0 []) as A. rewrite !app_nil_r in A. apply A. intros r Hr. rewrite (H r) by (right; auto). left; auto. }
    destruct m as [|x m].
    - destruct l as [|y l]; [apply oeq_refl|]. destruct (proj1 (HS y)); left; auto.
    - assert (Hx : forall r, In r (x :: m) -> r = x) by (intros; apply HU; auto; left; auto).
      apply oeq_trans with [x]; [apply O|apply oeq_sym, O; [exact Hx|discriminate]].
      + intros r Hr. apply Hx, HS, Hr.
      + intros ->. apply (proj2 (HS x)). left; auto. }
  apply C; auto.
Qed.

(** Where the automaton ends: the length of the match a backtracking matcher chooses.  Repetitions
    of what can match the empty string are left out, and at the end of the pattern nothing may prefer
    stopping to going on. *)
Theorem automaton_choice_partial am t label g : buildable t -> (label < NOLABEL)%N ->
  leaves_of am t -> (forall a, In a (atoms t) -> prefix_free a) -> firm_loops t -> tail_ok t ->
  build (factory_enc e) label (Some t) = Ok (Some g) ->
  forall w pos, best g label NOLABEL w 0 pos =
    option_map (fun r => (pos + N.of_nat (length w) - N.of_nat (length r))%N) (chosen am t w).
Proof.
  intros B HL LO PF FL TO E w pos.
  set (am' := fun a => if in_dec atom_eq_dec a (atoms t) then am a else fun _ => []).
  set (A' := fun a w => In a (atoms t) /\ enc_atom e a w).
  assert (AE : forall a, In a (atoms t) -> forall w, am a w = am' a w).
  { intros a Ha v. unfold am'. destruct (in_dec atom_eq_dec a (atoms t)); tauto. }
  assert (LO' : leaves_ok A' am').
  { intros a v r. unfold am', A'. destruct (in_dec atom_eq_dec a (atoms t)) as [Ha|Ha].
    - rewrite (LO a Ha v r). split; [intros (p & -> & H); exists p; repeat split; auto; intros ->; apply (enc_atom_nonempty a H)|].
      intros (p & -> & _ & _ & H). eauto.
    - simpl. split; [tauto|]. intros (p & _ & _ & H & _). tauto. }
  assert (NE' : leaves_nonempty A') by (intros a (_ & H); apply (enc_atom_nonempty a H)).
  assert (BA : forall a, In a (atoms t) -> builds (fun g => build_atom (factory_enc e) g a) (am' a) (atom_none e ws a)).
  { intros a Ha g1 S Z. pose proof (bd_atoms _ B a Ha) as HA. pose proof (proj1 (atom_builds e ws OK HW a HA) g1 S Z) as H.
    unfold factory_enc. fold ws. destruct (build_atom (enc_of e ws) g1 a) as [[g2 f2]| | |]; try tauto. destruct H as (H1 & H2 & H3).
    split; auto. split; auto. intros w'. rewrite <- AE by auto. eapply oeq_trans; [apply H3|]. apply (prefix_free_rests am t); auto. }
  assert (LA : forall a, In a (atoms t) -> lastly (fun g => build_atom (factory_enc e) g a) True True).
  { intros a Ha g1 S Z. pose proof (proj2 (atom_builds e ws OK HW a (bd_atoms _ B a Ha)) g1 S Z) as H.
    unfold factory_enc. fold ws. destruct (build_atom (enc_of e ws) g1 a) as [[g2 f2]| | |]; try tauto. destruct H as (H1 & H2).
    split; intros _; [exact H2|]. unfold skip_last. rewrite H1. auto. }
  pose proof (build_tree_spec (factory_enc e) am' (atom_none e ws) t BA (bd_look _ B) (bd_bounds _ B) (bd_zero _ B)) as BT.
  pose proof (tree_lastly (factory_enc e) A' am' (atom_none e ws) LO' NE' t BA LA (bd_look _ B) (bd_bounds _ B) (bd_zero _ B)) as TL.
  destruct (build_last (factory_enc e) label t _ _ _ _ g BT TL E) as (g0 & f & BU & W & EX).
  rewrite (best_last g0 f label g BU HL w pos (EX TO)). rewrite (oeq_hd _ _ (W w)). rewrite (oeq_hd _ _ (tries_ways A' am' t LO' NE' (bd_bounds _ B) FL w)).
  unfold chosen. rewrite (ways_ext am am' t AE). reflexivity.
Qed.

(** The same from the parsed pattern on: rewriting included. *)
Theorem pattern_choice_partial am text t t' label g :
  tree_ok t -> (forall a, In a (atoms t) -> atom_ok a) -> (containsPossibleCountedRepetition text = false -> no_zero t) ->
  (label < NOLABEL)%N -> leaves_of am t -> (forall a, In a (atoms t) -> single_step (am a)) ->
  joins_plain (fst (makeBinopsRightAssociative t)) ->
  reduce text (Some t) = Ok (Some t') -> firm_loops t' -> tail_ok t' ->
  build (factory_enc e) label (Some t') = Ok (Some g) ->
  forall w pos, best g label NOLABEL w 0 pos =
    option_map (fun r => (pos + N.of_nat (length w) - N.of_nat (length r))%N) (chosen am t w).
Proof.
  intros T HA Z HL LO SS P R FL TO E w pos.
  assert (L : has_look t = false). { destruct (has_look t) eqn:HK; auto. apply (lookaround_refused text) in HK. congruence. }
  destruct (reduce_hands_over (fun a => In a (atoms t)) text t t' T (proj2 (leafy_iff _ t) (conj L (fun a H => H))) Z R) as (LF & BO & NZ).
  apply leafy_iff in LF as (LK & LF).
  rewrite <- (reduce_choice_leaves am text t t' T SS P Z R w).
  apply automaton_choice_partial; auto.
  - constructor; auto.
  - intros a Ha. apply LO; auto.
  - intros a Ha p q H1 H2. apply LF in Ha. pose proof (LO a Ha (p ++ q)) as K. pose proof (proj2 (K q) (ex_intro _ p (conj eq_refl H1))) as K1.
    pose proof (proj2 (K []) (ex_intro _ (p ++ q) (conj (eq_sym (app_nil_r _)) H2))) as K2. destruct (SS a Ha (p ++ q)) as [E0|(r & E0 & _)]; rewrite E0 in K1, K2.
    + destruct K1.
    + destruct K1 as [K1|[]], K2 as [K2|[]]. congruence.
Qed.
End OneEncoder.
End Statements.

(** * Cases *)

(** An insertion sort by length, and no sorting of rows of one length: permutations of their input,
    the former sorted. *)
Fixpoint ins_len (x : list bset) (l : list (list bset)) : list (list bset) :=
  match l with
  | [] => [x]
  | y :: r => if length x <=? length y then x :: l else y :: ins_len x r
  end.
Definition sort_by_len (l : list (list bset)) : list (list bset) := fold_right ins_len [] l.
Definition no_sort (a b : nat) (l : list (list bset)) : list (list bset) := l.

Lemma ins_perm x l : Permutation (x :: l) (ins_len x l).
Proof. induction l as [|y l IH]; simpl; auto. destruct (_ <=? _); auto. eapply perm_trans; [apply perm_swap|]. constructor; auto. Qed.
Lemma by_len_perm l : Permutation l (sort_by_len l).
Proof. induction l as [|x l IH]; simpl; auto. eapply perm_trans; [apply perm_skip, IH|]. apply ins_perm. Qed.
Lemma by_len_sorted l : StronglySorted (fun a b => length a <= length b) (sort_by_len l).
Proof.
  induction l as [|x l IH]; simpl; [constructor|]. revert IH. generalize (sort_by_len l). clear. induction l as [|y l IH]; intros H; simpl.
  - repeat constructor.
  - apply StronglySorted_inv in H as (H1 & H2). destruct (Nat.leb_spec (length x) (length y)).
    + constructor; [constructor; auto|]. constructor; auto. eapply Forall_impl; [|exact H2]. simpl. intros; lia.
    + constructor; auto. eapply Permutation_Forall; [apply ins_perm|]. constructor; auto. lia.
Qed.
Lemma no_sort_perm a b l : Permutation l (no_sort a b l).
Proof. apply Permutation_refl. Qed.

Notation ch c := (PAtom (ALit c)).
Definition built_with (c : charset) (t : pnode) : res (option nfa) := build (factory_enc no_sort sort_by_len (EBase c)) 7 (Some t).

(** `é([aα-ω]+|xy)z?` in UTF-8 *)
Example mixed : pnode :=
  PCat (ch 233) (PCat (PAlt (PRep true (PAtom (AClass [97; 98; 945; 970]%N bs_empty true)) 1 UNBOUNDED) (PCat (ch 120) (ch 121))) (PRep true (ch 122) 0 1)).

Example mixed_ok : buildable mixed.
Proof.
  split; try (vm_compute; reflexivity); try (simpl; unfold UNBOUNDED, two32; repeat split; try lia).
  intros a [<-|[<-|[<-|[<-|[<-|[]]]]]]; try exact I. split; [|apply empty_wf].
  split; [repeat constructor; lia|reflexivity|repeat constructor; lia].
Qed.

Example mixed_language : exists g, built_with UTF8 mixed = Ok (Some g) /\ length g = 11 /\
  matches g 7 [195;169;206;177;97;122]%N /\ ~ matches g 7 [195;169]%N.
Proof.
  destruct (built_with UTF8 mixed) as [[g|]| | |] eqn:E; try (vm_compute in E; discriminate).
  exists g. split; auto. split; [vm_compute in E; injection E as <-; reflexivity|].
  pose proof (automaton_language no_sort sort_by_len no_sort_perm by_len_perm by_len_sorted (EBase UTF8) I mixed 7 g mixed_ok eq_refl E 7) as L.
  assert (EN : forall cp w, enc_write (EBase UTF8) cp = w -> w <> [] -> encodes (EBase UTF8) cp w) by (intros; apply encodes_iff; simpl; auto).
  split.
  - apply L. split; auto. exists [195;169]%N, [206;177;97;122]%N. split; auto. split; [apply EN; [reflexivity|discriminate]|].
    exists [206;177;97]%N, [122]%N. split; auto. split.
    + left. exists 2. split; [vm_compute; split; [discriminate|auto]|]. exists [206;177]%N, [97]%N. split; auto. split.
      * left. exists 945%N. split; [|apply EN; [reflexivity|discriminate]]. exists 945%N, 970%N. split; [vm_compute; auto|lia].
      * exists [97]%N, []. split; auto. split; [|reflexivity]. left. exists 97%N. split; [|apply EN; [reflexivity|discriminate]]. exists 97%N, 98%N. split; [vm_compute; auto|lia].
    + exists 1. split; [vm_compute; split; [discriminate|right; discriminate]|]. exists [122]%N, []. split; auto. split; [apply EN; [reflexivity|discriminate]|reflexivity].
  - intros H. apply L in H as (_ & u & v & E1 & H1 & (u1 & v1 & -> & H2 & H3)). apply encodes_iff in H1 as (H1 & _); [|exact I]. vm_compute in H1. subst u.
    injection E1 as E1. symmetry in E1. apply app_eq_nil in E1 as (-> & ->).
    assert (Z : hasZeroLengthMatch (PAlt (PRep true (PAtom (AClass [97; 98; 945; 970]%N bs_empty true)) 1 UNBOUNDED) (PCat (ch 120) (ch 121))) = false) by reflexivity.
    apply BuildTail.lang_nil in H2; [congruence| |simpl; unfold UNBOUNDED, two32; repeat split; lia].
    apply enc_atom_nonempty. exact I.
Qed.

(** Building `a?` finds the empty match; building [Α] in ASCII throws. *)
Example fails_case : built_with ASCII (PRep true (ch 97) 0 1) = Ok None /\
  built_with ASCII (PCat (ch 97) (PAtom (AClass [913; 914]%N bs_empty true))) = Throw.
Proof. split; vm_compute; reflexivity. Qed.

(** Leaves that are ASCII characters *)
Lemma ascii_leaves t : (forall a, In a (atoms t) -> exists c, a = ALit c /\ (0 <= c < 128)%Z) -> leaves_of (EBase ASCII) lit t.
Proof.
  intros H a Ha w r. destruct (H a Ha) as (c & -> & Hc). cbn [enc_atom lit].
  assert (W : forall p, encodes (EBase ASCII) c p <-> p = [Z.to_N c]).
  { intros p. rewrite encodes_iff by exact I. cbn [enc_write base_write]. replace (c <? 0)%Z with false by lia. replace (c <? 128)%Z with true by lia.
    split; [intros (<- & _); auto|]. intros ->. split; auto. discriminate. }
  split.
  - destruct w as [|b w]; simpl; [tauto|]. destruct (Z.eqb_spec c (Z.of_N b)) as [->|]; simpl; [|tauto]. intros [<-|[]]. exists [b]. split; auto. apply W. rewrite N2Z.id. auto.
  - intros (p & -> & Hp). apply W in Hp as ->. simpl. rewrite Z2N.id, Z.eqb_refl by lia. left; auto.
Qed.

(** `(b|c)(a+b)?x{2}x{2}d*?`, the example of Thm_Rewrite.v, from the parsed tree to the automaton *)
Example demo_choice : exists t' g,
  reduce [40;98;124;99;41;63;120;123;50;125;120;123;50;125;100;42;63]%N (Some demo) = Ok (Some t') /\ built_with ASCII t' = Ok (Some g) /\
  (forall w pos, best g 7 NOLABEL w 0 pos = option_map (fun r => (pos + N.of_nat (length w) - N.of_nat (length r))%N) (chosen lit demo w)) /\
  best g 7 NOLABEL [99;97;98;120;120;120;120;100]%N 0 0 = Some 7%N.
Proof.
  destruct (reduce [40;98;124;99;41;63;120;123;50;125;120;123;50;125;100;42;63]%N (Some demo)) as [[t'|]| | |] eqn:R; try (vm_compute in R; discriminate).
  destruct (built_with ASCII t') as [[g|]| | |] eqn:E; try (vm_compute in R; injection R as <-; vm_compute in E; discriminate).
  exists t', g. split; auto. split; auto. split; [|vm_compute in R; injection R as <-; vm_compute in E; injection E as <-; vm_compute; reflexivity].
  assert (AT : forall a, In a (atoms demo) -> exists c, a = ALit c /\ (0 <= c < 128)%Z).
  { intros a Ha. vm_compute in Ha. repeat destruct Ha as [<-|Ha]; try destruct Ha; eexists; split; try reflexivity; lia. }
  apply (pattern_choice_partial no_sort sort_by_len no_sort_perm by_len_perm by_len_sorted (EBase ASCII) I lit
           [40;98;124;99;41;63;120;123;50;125;120;123;50;125;100;42;63]%N demo t' 7 g).
  - exact demo_ok.
  - intros a Ha. destruct (AT a Ha) as (c & -> & _). exact I.
  - vm_compute. discriminate.
  - reflexivity.
  - apply ascii_leaves; auto.
  - intros; apply lit_single.
  - exact demo_joins.
  - exact R.
  - vm_compute in R. injection R as <-. vm_compute. intuition (auto; try congruence).
  - vm_compute in R. injection R as <-. vm_compute. intuition (auto; try congruence).
  - exact E.
Qed.

(** * Where the choice differs *)

(** `a(b|c?|d)` on "ad": the empty alternative comes before `d`, and still the automaton goes on. *)
Theorem automaton_choice_refuted : exists t g w, buildable t /\ leaves_of (EBase ASCII) lit t /\ firm_loops t /\ built_with ASCII t = Ok (Some g) /\
  chosen lit t w = Some [100%N] /\ best g 7 NOLABEL w 0 0 = Some (N.of_nat (length w)).
Proof.
  set (t := PCat (ch 97) (PAlt (ch 98) (PAlt (PRep true (ch 99) 0 1) (ch 100)))).
  assert (AT : forall a, In a (atoms t) -> exists c, a = ALit c /\ (0 <= c < 128)%Z).
  { intros a Ha. vm_compute in Ha. repeat destruct Ha as [<-|Ha]; try destruct Ha; eexists; split; try reflexivity; lia. }
  destruct (built_with ASCII t) as [[g|]| | |] eqn:E; try (vm_compute in E; discriminate).
  exists t, g, [97; 100]%N. split.
  { split; try (vm_compute; reflexivity); try (simpl; unfold UNBOUNDED, two32; repeat split; try lia). intros a Ha. destruct (AT a Ha) as (c & -> & _). exact I. }
  split; [apply ascii_leaves; auto|]. split; [vm_compute; intuition (auto; congruence)|]. split; auto.
  vm_compute in E. injection E as <-. vm_compute. auto.
Qed.

(** `(a??)+(bc|ab)` on "aabc": a backtracking matcher takes one empty turn and then `a` `ab`, three
    bytes; the automaton four.  Nothing at the end of the pattern prefers stopping. *)
Theorem automaton_loop_choice_refuted : exists t g w, buildable t /\ leaves_of (EBase ASCII) lit t /\ tail_ok t /\ built_with ASCII t = Ok (Some g) /\
  chosen lit t w = Some [99%N] /\ best g 7 NOLABEL w 0 0 = Some (N.of_nat (length w)).
Proof.
  set (t := PCat (PRep true (PRep false (ch 97) 0 1) 1 UNBOUNDED) (PAlt (PCat (ch 98) (ch 99)) (PCat (ch 97) (ch 98)))).
  assert (AT : forall a, In a (atoms t) -> exists c, a = ALit c /\ (0 <= c < 128)%Z).
  { intros a Ha. vm_compute in Ha. repeat destruct Ha as [<-|Ha]; try destruct Ha; eexists; split; try reflexivity; lia. }
  destruct (built_with ASCII t) as [[g|]| | |] eqn:E; try (vm_compute in E; discriminate).
  exists t, g, [97; 97; 98; 99]%N. split.
  { split; try (vm_compute; reflexivity); try (simpl; unfold UNBOUNDED, two32; repeat split; try lia). intros a Ha. destruct (AT a Ha) as (c & -> & _). exact I. }
  split; [apply ascii_leaves; auto|]. split; [vm_compute; intuition (auto; congruence)|]. split; auto.
  vm_compute in E. injection E as <-. vm_compute. auto.
Qed.

Print Assumptions automaton_language.
Print Assumptions build_outcome.
Print Assumptions build_fails_exactly.
Print Assumptions automaton_choice_partial.
Print Assumptions pattern_choice_partial.
Print Assumptions automaton_choice_refuted.
Print Assumptions automaton_loop_choice_refuted.
