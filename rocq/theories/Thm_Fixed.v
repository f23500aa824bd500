(** C49, C50, C51: fixed strings, escaped patterns and ignoring case, from the text of the pattern to
    the hits. *)
From Coq Require Import Sorting.Permutation Sorting.Sorted.
From Verif Require Import VmSpec VmIdeal VmSim VmGeneric VmCalls VmCheck Thm_VmRun.
From Verif Require Import Base NfaModel VmModel VmRunnable VmSearch CodegenLayout CodegenModel CodegenSpec CodegenTotal CodegenRun Thm_Codegen RangeSetModel RangeSetProofs ByteSetModel ByteSetProofs Thm_ByteSet UtfModel UtfProofs Thm_Utf EscModel
  EncModel EncProofs EncUtf Thm_Enc PatModel PatSpec RewriteProofs Thm_Rewrite BuildModel BuildSpec BuildTree BuildEnc BuildTail ReduceBuild ReduceEmpty ReduceSub Thm_Build OptModel OptSpec OptLive OptZero OptPipe Thm_Pipe Thm_Api
  ParseModel ParseSets ParseGrammar ParseRun ParseText ParseFixed Thm_Parse.
Import PatSpec.
Open Scope Z_scope.

(** * Trees without alternatives and repetitions are only rebalanced *)

Fixpoint flat (t : pnode) : Prop :=
  match t with PCat l r => flat l /\ flat r | PAtom _ => True | _ => False end.

Lemma flat_ra t : flat t -> flat (fst (makeBinopsRightAssociative t)).
Proof.
  induction t as [k t IH|l IHl r IHr|l IHl r IHr|g t IH mn mx|a]; simpl; try tauto. intros [Hl Hr]. specialize (IHl Hl). specialize (IHr Hr).
  destruct (makeBinopsRightAssociative l) as [l' b1], (makeBinopsRightAssociative r) as [r' b2]. cbn [fst] in *. destruct l'; simpl in *; tauto.
Qed.
Lemma flat_look t : flat t -> has_look t = false.
Proof. induction t as [k t IH|l IHl r IHr|l IHl r IHr|g t IH mn mx|a]; simpl; try tauto. intros [Hl Hr]. rewrite IHl, IHr; auto. Qed.
Lemma flat_only t : flat t -> has_only_zero_length_match t = false.
Proof. induction t as [k t IH|l IHl r IHr|l IHl r IHr|g t IH mn mx|a]; simpl; try tauto. intros [Hl Hr]. rewrite IHl; auto. Qed.
Lemma flat_combine t : flat t -> combineConsecutiveRepetitions t = (t, false).
Proof.
  induction t as [k t IH|l IHl r IHr|l IHl r IHr|g t IH mn mx|a]; simpl; try tauto. intros [Hl Hr]. rewrite IHl, IHr; auto.
  assert (N : forall y, combinable l y = false) by (intros y; destruct l; simpl in *; tauto). rewrite N. destruct r; auto. rewrite N. auto.
Qed.
Lemma flat_greedy t : flat t -> reduceTrailingNongreedyThenGreedy t = (t, false).
Proof. induction t as [k t IH|l IHl r IHr|l IHl r IHr|g t IH mn mx|a]; simpl; try tauto. intros [Hl Hr]. rewrite IHr; auto. destruct l; simpl in *; tauto. Qed.
Lemma flat_zero t : flat t -> hasZeroLengthMatch t = false.
Proof. induction t as [k t IH|l IHl r IHr|l IHl r IHr|g t IH mn mx|a]; simpl; try tauto. intros [Hl Hr]. rewrite IHl; auto. Qed.
Lemma flat_nongreedy t : flat t -> reduceTrailingNongreedyThenEmpty t = (t, false).
Proof. induction t as [k t IH|l IHl r IHr|l IHl r IHr|g t IH mn mx|a]; simpl; try tauto. intros [Hl Hr]. rewrite (flat_zero r Hr), IHr; auto. Qed.
Lemma flat_empty t : flat t -> reduceEmptySubtrees t = t.
Proof.
  induction t as [k t IH|l IHl r IHr|l IHl r IHr|g t IH mn mx|a]; try (simpl; tauto). intros H. pose proof (flat_only _ H) as O. destruct H as [Hl Hr]. cbn [reduceEmptySubtrees]. rewrite O.
  rewrite (IHl Hl), (IHr Hr), (flat_only l Hl), (flat_only r Hr). auto.
Qed.
Lemma flat_useless t : flat t -> reduceUselessRepetitions t = t.
Proof. induction t as [k t IH|l IHl r IHr|l IHl r IHr|g t IH mn mx|a]; simpl; try tauto. intros [Hl Hr]. rewrite IHl, IHr; auto. Qed.

Lemma flat_reduce text t : flat t -> reduce text (Some t) = Ok (Some (fst (makeBinopsRightAssociative t))).
Proof.
  intros H. unfold reduce. pose proof (flat_ra t H) as F. destruct (makeBinopsRightAssociative t) as [t1 b1]. cbn [fst] in *. rewrite (flat_look t1 F), (flat_combine t1 F), (flat_nongreedy t1 F), (flat_greedy t1 F).
  assert (X : (if containsPossibleNongreedy text then (t1, false || false) else (t1, false)) = (t1, false)) by (destruct (containsPossibleNongreedy text); auto). rewrite X.
  unfold reduceEmptySubtrees_root. rewrite (flat_only t1 F), (flat_empty t1 F), (flat_useless t1 F).
  match goal with |- (if ?x then _ else _) = _ => destruct x; auto end.
Qed.

Lemma flat_ra_lang A t : forall w, lang A (fst (makeBinopsRightAssociative t)) w <-> lang A t w.
Proof.
  intros w. split; [apply ra_sub|]. revert w.
  induction t as [k t IH|l IHl r IHr|l IHl r IHr|g t IH mn mx|a]; cbn [makeBinopsRightAssociative].
  - destruct (makeBinopsRightAssociative t); simpl; tauto.
  - destruct (makeBinopsRightAssociative l) as [l' b1], (makeBinopsRightAssociative r) as [r' b2]. cbn [fst] in *. intros w H.
    assert (S : lang A (PAlt l' r') w) by (simpl in *; destruct H; auto). destruct l'; auto. simpl in *. tauto.
  - destruct (makeBinopsRightAssociative l) as [l' b1], (makeBinopsRightAssociative r) as [r' b2]. cbn [fst] in *. intros w H.
    assert (S : lang A (PCat l' r') w) by (simpl in *; destruct H as (u & v & -> & Hu & Hv); exists u, v; auto). destruct l'; auto. simpl in *.
    destruct S as (u & v & -> & (x & y & -> & Hx & Hy) & Hv). exists x, (y ++ v). rewrite app_assoc. split; auto. split; auto. exists y, v. auto.
  - destruct (makeBinopsRightAssociative t) as [t' b]. cbn [fst] in *. intros w (n & W & P). exists n. split; auto. revert w P. clear W. induction n as [|n IHn]; simpl; auto.
    intros w (u & v & -> & Hu & Hv). exists u, v. auto.
  - auto.
Qed.

(** * C49: fixed strings *)

(** The characters one after the other *)
Definition literals (cps : list Z) : pnode := match cps with [] => PAtom ADot | c :: cs => row (PAtom (ALit c)) (map (fun c => PAtom (ALit c)) cs) end.

Lemma cased_lits I o cs : cased o = true -> Forall2 (fun c p => literal_node I o c = Ok p) cs (map (fun c => PAtom (ALit c)) cs).
Proof. intros C. induction cs as [|c cs IH]; constructor; auto. unfold literal_node. rewrite C. auto. Qed.

Lemma chars_plain cs : Forall2 plain (map TChar cs) cs.
Proof. induction cs; constructor; auto. left. auto. Qed.

(** The text of a fixed string is taken as it is: it is accepted if it is UTF-8, not empty and without
    a zero character, and then the pattern is the row of its characters. *)
Theorem fixed_exactly I unicode text t n : bytes text ->
  (parse I true false unicode text = Ok (t, n) <-> exists cps, utf8_text cps text /\ cps <> [] /\ Forall (fun c => 1 <= c) cps /\ t = literals cps /\ n = (2 * length cps)%nat).
Proof.
  intros B. assert (GO : forall c cs, Forall (fun c => 1 <= c) (c :: cs) -> transform_utf8_to_unicode text = Ok (c :: cs) -> parse I true false unicode text = Ok (literals (c :: cs), (2 * length (c :: cs))%nat)).
  { intros c cs F T. unfold parse. rewrite T. cbn [bind]. rewrite lex_literal by auto. cbn [map]. rewrite <- (app_nil_r (TChar c :: map TChar cs)). cbn [app].
    rewrite (plain_alt I _ (TChar c) (map TChar cs) c cs (PAtom (ALit c)) (map (fun c => PAtom (ALit c)) cs)); auto.
    - cbn [bind]. rewrite map_length. cbn [length literals]. replace (S (1 + 2 * length cs)) with (2 * S (length cs))%nat by lia. auto.
    - left. auto.
    - apply chars_plain.
    - apply cased_lits. auto.
    - cbn [length]. rewrite app_nil_r, map_length. lia. }
  split.
  - intros E. pose proof (transform_spec (S (length text)) text B ltac:(lia)) as TS. unfold parse in E. destruct (transform_utf8_to_unicode text) as [cps| | |] eqn:T; try discriminate.
    unfold transform_utf8_to_unicode in T. rewrite T in TS. destruct TS as (ws & EW & F2). destruct (first_small cps) as [F|(a & c & b & -> & F & Hc)].
    + destruct cps as [|c cs]; [exfalso|].
      * cbn [bind length lex] in E. change (6 * length (@nil tok) + 6)%nat with 6%nat in E. rewrite (proj2 (bad_alt I _ 6 ltac:(lia))) in E. discriminate.
      * specialize (GO c cs F eq_refl). unfold parse in GO. unfold transform_utf8_to_unicode in GO. rewrite T in GO. rewrite E in GO. injection GO as -> ->. exists (c :: cs). split; [|split; [discriminate|auto]].
        exists ws. split; auto. clear -F F2. revert F. induction F2 as [|x w xs ws [_ [->|H]] F2 IH]; intros F; inversion F; subst; constructor; auto; lia.
    + exfalso. cbn [bind] in E. rewrite lex_literal_bad in E by auto. destruct a as [|x a].
      * change (6 * length (map TChar [] ++ [TBad]) + 6)%nat with 12%nat in E. cbn [map app] in E. rewrite (proj1 (bad_alt I _ 12 ltac:(lia))) in E. discriminate.
      * cbn [map app] in E. rewrite (plain_alt I _ (TChar x) (map TChar a) x a (PAtom (ALit x)) (map (fun c => PAtom (ALit c)) a)) in E; auto.
        -- discriminate.
        -- left; auto.
        -- apply chars_plain.
        -- apply cased_lits; auto.
        -- cbn [length]. rewrite app_length, map_length. simpl. lia.
  - intros (cps & U & NE & F & -> & ->). destruct cps as [|c cs]; [congruence|]. apply GO; auto. apply utf8_transform. auto.
Qed.
Print Assumptions fixed_exactly.

Lemma literals_flat cps : flat (literals cps).
Proof. destruct cps as [|c cs]; simpl; auto. apply (row_inv flat); simpl; auto. apply Forall_map, Forall_forall. simpl. auto. Qed.

Lemma row_atoms ps : forall p, atoms (row p ps) = atoms p ++ flat_map atoms ps.
Proof. induction ps as [|q ps IH]; intros p; unfold row in *; cbn [fold_left flat_map]; [rewrite app_nil_r; auto|]. rewrite IH. cbn [atoms]. rewrite app_assoc. auto. Qed.
Lemma literals_atoms cps : cps <> [] -> atoms (literals cps) = map ALit cps.
Proof. destruct cps as [|c cs]; [congruence|]. intros _. cbn [literals]. rewrite row_atoms. simpl. f_equal. induction cs; simpl; congruence. Qed.

(** It matches the encoded characters in order. *)
Theorem fixed_language e cps w : cps <> [] -> (lang (enc_atom e) (literals cps) w <-> exists ws, w = List.concat ws /\ Forall2 (encodes e) cps ws).
Proof.
  destruct cps as [|c cs]; [congruence|]. intros _. cbn [literals]. rewrite row_lang.
  assert (X : forall cs us, Forall2 (lang (enc_atom e)) (map (fun c => PAtom (ALit c)) cs) us <-> Forall2 (encodes e) cs us).
  { clear. induction cs as [|c cs IH]; intros us; simpl; split; intros H; inversion H; subst; constructor; auto; apply IH; auto. }
  split.
  - intros (u & us & -> & Hu & F). exists (u :: us). split; auto. constructor; auto. apply X. auto.
  - intros (ws & -> & F). inversion F as [|? u ? us Hu F']; subst. exists u, us. split; auto. split; auto. apply X. auto.
Qed.
Print Assumptions fixed_language.

Lemma ra_atoms t : atoms (fst (makeBinopsRightAssociative t)) = atoms t.
Proof.
  induction t as [k t IH|l IHl r IHr|l IHl r IHr|g t IH mn mx|a]; cbn [makeBinopsRightAssociative]; auto.
  - destruct (makeBinopsRightAssociative t); auto.
  - destruct (makeBinopsRightAssociative l) as [l' b1], (makeBinopsRightAssociative r) as [r' b2]. cbn [fst] in *. destruct l'; cbn [fst atoms] in *; rewrite ?IHr, <- ?IHl; auto. rewrite app_assoc. auto.
  - destruct (makeBinopsRightAssociative l) as [l' b1], (makeBinopsRightAssociative r) as [r' b2]. cbn [fst] in *. destruct l'; cbn [fst atoms] in *; rewrite ?IHr, <- ?IHl; auto. rewrite app_assoc. auto.
  - destruct (makeBinopsRightAssociative t); auto.
Qed.

(** In UTF-8 that is the text as it was typed. *)
Theorem fixed_utf8_language I unicode text t n w : bytes text -> parse I true false unicode text = Ok (t, n) -> (lang (enc_atom (EBase UTF8)) t w <-> w = text).
Proof.
  intros B E. apply fixed_exactly in E; auto. destruct E as (cps & (ws & F & ->) & NE & _ & -> & _). rewrite fixed_language by auto.
  assert (X : forall cps us, Forall2 (encodes (EBase UTF8)) cps us <-> Forall2 rfc3629 cps us).
  { clear. induction cps as [|c cs IH]; intros us; split; intros H; inversion H as [|? u ? us' H1 H2]; subst; constructor; try apply IH; auto; [inversion H1; auto|constructor; auto]. }
  split.
  - intros (us & -> & G). apply X in G. f_equal. clear -F G. revert us G. induction F as [|c w cs ws H F IH]; intros us G; inversion G as [|? u ? us' H1 H2]; subst; auto. f_equal; auto.
    apply u8_spec in H as (_ & _ & ->). apply u8_spec in H1 as (_ & _ & ->). auto.
  - intros ->. exists ws. split; auto. apply X. auto.
Qed.
Print Assumptions fixed_utf8_language.

(** * Adding and searching for fixed strings *)

(** The end of the occurrence of [key] at offset [s], if there is one *)
Definition found (key data : list N) (off s : N) : list N :=
  if list_eq_dec N.eq_dec (slice data off s (s + N.of_nat (length key))) key then [(s + N.of_nat (length key))%N] else [].

Lemma leftmost_change M1 M2 stop m hs : (forall s, m <= s -> s < stop -> hd_error (M1 s) = hd_error (M2 s))%N -> (forall s e, m <= s -> s < stop -> In e (M1 s) -> s < e)%N ->
  leftmost M1 stop m hs -> leftmost M2 stop m hs.
Proof.
  intros HM HP H. induction H as [m N|m s e r H1 H2 H3 H4 H5 IH].
  - constructor. intros s A B. specialize (N s A B). specialize (HM s A B). rewrite N in HM. destruct (M2 s); [auto|discriminate].
  - assert (L : (s < e)%N). { apply HP; auto. destruct (M1 s); [discriminate|]. injection H4 as ->. left. auto. }
    econstructor; eauto.
    + intros s' A B. specialize (H3 s' A B). specialize (HM s' A ltac:(lia)). rewrite H3 in HM. destruct (M2 s'); [auto|discriminate].
    + rewrite <- HM; auto.
    + apply IH; intros; [apply HM|apply HP]; auto; lia.
Qed.

Lemma slice_length data off s e : (off <= s <= e)%N -> (e <= off + N.of_nat (length data))%N -> length (slice data off s e) = N.to_nat (e - s).
Proof. intros A B. unfold slice. rewrite firstn_length, skipn_length. lia. Qed.
Lemma slice_inside data off s n : (off <= s)%N -> length (slice data off s (s + N.of_nat n)) = n -> (s <= off + N.of_nat (length data))%N -> (s + N.of_nat n <= off + N.of_nat (length data))%N.
Proof. intros A B C. unfold slice in B. rewrite firstn_length, skipn_length in B. lia. Qed.

(** If the only text of a pattern is [key], what is found are its occurrences. *)
Lemma leftmost_key key data off M hs (L : list N -> Prop) : key <> [] -> (forall w, L w <-> w = key) ->
  let stop := (off + N.of_nat (length data))%N in leftmost M stop off hs ->
  (forall s x, (off <= s)%N -> In x (M s) -> (s < x <= stop)%N /\ L (slice data off s x)) ->
  (forall s x, (off <= s < x)%N -> (x <= stop)%N -> L (slice data off s x) -> M s <> []) ->
  leftmost (found key data off) stop off hs.
Proof.
  intros NE HL stop LM H1 H2. revert LM. apply leftmost_change; [|intros s e A _ B; apply H1 in B; auto; lia]. intros s A B. unfold found. destruct (list_eq_dec _ _ _) as [E|E].
  - assert (I : (s + N.of_nat (length key) <= stop)%N). { apply slice_inside; auto; [rewrite E; auto|unfold stop in B; lia]. }
    assert (P : (0 < length key)%nat) by (destruct key; [congruence|simpl; lia]). specialize (H2 s (s + N.of_nat (length key))%N ltac:(lia) I (proj2 (HL _) E)).
    destruct (M s) as [|x r] eqn:EM; [congruence|]. destruct (H1 s x A) as (C & D); [rewrite EM; left; auto|]. apply HL in D. cbn [hd_error]. f_equal.
    apply (f_equal (@length N)) in D. rewrite slice_length in D by (unfold stop in *; lia). lia.
  - destruct (M s) as [|x r] eqn:EM; auto. exfalso. destruct (H1 s x A) as (C & D); [rewrite EM; left; auto|]. apply HL in D. apply E.
    pose proof (f_equal (@length N) D) as D'. rewrite slice_length in D' by (unfold stop in *; lia). replace (s + N.of_nat (length key))%N with x by lia. auto.
Qed.

Lemma encodes_unique e cps us vs : enc_ok e -> Forall2 (encodes e) cps us -> Forall2 (encodes e) cps vs -> us = vs.
Proof.
  intros OK F. revert vs. induction F as [|c u cs us H F IH]; intros vs G; inversion G as [|? v ? vs' H1 H2]; subst; auto. f_equal; auto. apply (encodes_iff e OK) in H as (<- & _). apply (encodes_iff e OK) in H1 as (<- & _). auto.
Qed.
Lemma encodes_exist e cps : (forall c, In c cps -> exists w, encodes e c w) -> exists ws, Forall2 (encodes e) cps ws.
Proof.
  induction cps as [|c cs IH]; intros H; [exists []; constructor|]. destruct (H c) as (w & Hw); [left; auto|]. destruct IH as (ws & F); [intros; apply H; right; auto|]. exists (w :: ws). constructor; auto.
Qed.
Lemma encoded_nonempty e cps ws : enc_ok e -> cps <> [] -> Forall2 (encodes e) cps ws -> List.concat ws <> [].
Proof. intros OK NE F. destruct F as [|c w cs ws H F]; [congruence|]. apply (encodes_iff e OK) in H as (_ & H). simpl. destruct w; [congruence|discriminate]. Qed.

Section Statements.
Variable sort : nat -> nat -> list (list bset) -> list (list bset).
Variable sort_len : list (list bset) -> list (list bset).
Hypothesis sort_perm : forall a b l, Permutation l (sort a b l).
Hypothesis sort_len_perm : forall l, Permutation l (sort_len l).
Hypothesis sort_len_sorted : forall l, StronglySorted (fun a b => (length a <= length b)%nat) (sort_len l).
Notation stream_calls off cs := (chunk_calls off cs ++ [CClose true]).

Lemma literals_parsed text cps : (N.of_nat (length cps) < UNBOUNDED)%N -> parsed text (literals cps).
Proof.
  intros L. assert (F : forall t, flat t -> bounds_ok t /\ no_zero t) by (induction t; simpl; tauto). destruct (F _ (literals_flat cps)). split; auto.
  - destruct cps as [|c cs]; [reflexivity|]. cbn [literals]. assert (T : forall cs p, (total (row p (map (fun c => PAtom (ALit c)) cs)) = total p + N.of_nat (length cs))%N).
    { clear. induction cs as [|c cs IH]; intros p; unfold row in *; cbn [map fold_left length]; [lia|]. rewrite IH. cbn [total]. lia. }
    rewrite T. cbn [total length] in *. lia.
  - destruct cps as [|c cs]; [intros a [<-|[]]; exact Logic.I|]. rewrite literals_atoms by discriminate. intros a Ha. apply in_map_iff in Ha as (x & <- & _). exact Logic.I.
Qed.

(** A fixed string is accepted if and only if each of its characters has an encoding. *)
Theorem fixed_accepted I unicode e text t n fsm label L fuel : enc_ok e -> bytes text -> (N.of_nat (length text) < UNBOUNDED)%N -> parse I true false unicode text = Ok (t, n) ->
  fsm_inv fsm L -> ~ L label -> (label < NOLABEL)%N -> (parsed_fuel sort sort_len e text t label <= fuel)%nat ->
  exists cps, utf8_text cps text /\
    ((exists g, add_parsed sort sort_len fuel e fsm text t label = Ok g) <-> forall c, In c cps -> exists w, encodes e c w) /\
    (add_parsed sort sort_len fuel e fsm text t label = Throw <-> exists c, In c cps /\ forall w, ~ encodes e c w).
Proof.
  intros OK B LT E I0 NL HL HF. apply fixed_exactly in E; auto. destruct E as (cps & U & NE & _ & -> & _). exists cps. split; auto.
  assert (LE : (length cps <= length text)%nat). { destruct U as (ws & F & ->). clear -F. induction F as [|c w cs ws H F IH]; auto. simpl. rewrite app_length. assert (X : (1 <= length w)%nat) by (destruct H; simpl; lia). lia. }
  pose proof (literals_parsed text cps ltac:(lia)) as PA. pose proof (flat_reduce text (literals cps) (literals_flat cps)) as R.
  destruct (parsed_buildable text (literals cps) _ PA R) as (BD & _). unfold add_parsed. unfold parsed_fuel in HF. rewrite R in *. cbn [bind].
  pose proof (add_pattern sort sort_len sort_perm sort_len_perm sort_len_sorted e _ fsm label L fuel OK BD I0 NL HL HF) as AP.
  assert (AD : addable e (fst (makeBinopsRightAssociative (literals cps))) <-> forall c, In c cps -> exists w, encodes e c w).
  { unfold addable. rewrite flat_ra_lang, ra_atoms, literals_atoms by auto. split.
    - intros (_ & H) c Hc. apply (H (ALit c)). apply in_map. auto.
    - intros H. split; [|intros a Ha; apply in_map_iff in Ha as (c & <- & Hc); apply (H c Hc)].
      intros K. apply fixed_language in K as (ws & EW & F); auto. symmetry in EW. revert EW. eapply encoded_nonempty; eauto. }
  assert (DEC : ~ (forall c, In c cps -> exists w, encodes e c w) -> exists c, In c cps /\ forall w, ~ encodes e c w).
  { clear -OK. induction cps as [|c cs IH]; [intros H; exfalso; apply H; intros c []|]. intros H. destruct (enc_write e c) as [|b l] eqn:Ew.
    - exists c. split; [left; auto|]. intros w K. apply (encodes_iff e OK) in K as (<- & K). congruence.
    - destruct IH as (x & Hx & K); [|exists x; split; [right|]; auto]. intros K. apply H. intros x [<-|Hx]; auto. exists (b :: l). apply (encodes_iff e OK). split; [auto|discriminate]. }
  destruct (addPattern _ _ _ _ _) as [g| | |]; try contradiction.
  - destruct AP as (AP & _). pose proof (proj1 AD AP) as AP1. clear AP. rename AP1 into AP. split; [split; [auto|eauto]|]. split; [discriminate|]. intros (c & Hc & K). destruct (AP c Hc) as (w & Hw). exfalso. apply (K w Hw).
  - rewrite AD in AP. split; split; auto; [intros (g & [=])|contradiction].
Qed.

Section Searching.
Variables (ks : list (encoder * pnode)) (rs : list (option N)) (P : program) (fuel : nat).
Hypothesis C : created sort sort_len ks rs P.
Hypothesis HV : (2 * length (p_words P) <= fuel)%nat.

(** The hits of a fixed string are the occurrences of its encoded characters, found from left to right
    without overlap. *)
Theorem fixed_hits I unicode text t n t' cs off hits vs j e l : (off + N.of_nat (length (List.concat cs)) < two64)%N -> bytes (List.concat cs) -> bytes text ->
  session fuel P (stream_calls off cs) = Ok (hits, vs) -> nth_error ks j = Some (e, t') -> nth_error rs j = Some (Some l) ->
  parse I true false unicode text = Ok (t, n) -> reduce text (Some t) = Ok (Some t') ->
  exists cps ws, utf8_text cps text /\ Forall2 (encodes e) cps ws /\
    leftmost (found (List.concat ws) (List.concat cs) off) (off + N.of_nat (length (List.concat cs)))%N off (hits_of l hits).
Proof.
  intros Ho Hb Ht E Ek Er EP ER. apply fixed_exactly in EP; auto. destruct EP as (cps & U & NE & _ & -> & _).
  rewrite (flat_reduce text _ (literals_flat cps)) in ER. injection ER as <-.
  destruct (created_facts sort sort_len sort_perm sort_len_perm sort_len_sorted ks rs P C) as (gf & K & f1 & f2 & _ & _ & _ & _ & _ & KW). destruct (KW j e _ l Ek Er) as (OK & _ & (_ & AD) & _).
  rewrite ra_atoms, literals_atoms in AD by auto. destruct (encodes_exist e cps) as (ws & F). { intros c Hc. apply (AD (ALit c)). apply in_map. auto. }
  exists cps, ws. split; auto. split; auto.
  destruct (searched_hits_leftmost sort sort_len sort_perm sort_len_perm sort_len_sorted ks rs P fuel C HV cs off hits vs j e _ l Ho Hb E Ek Er) as (M & LM & M1 & M2).
  eapply (leftmost_key _ _ _ M _ (lang (enc_atom e) (fst (makeBinopsRightAssociative (literals cps))))); eauto.
  - eapply encoded_nonempty; eauto.
  - intros w. rewrite flat_ra_lang, fixed_language by auto. split; [|intros ->; exists ws; auto]. intros (us & -> & G). f_equal. eapply encodes_unique; eauto.
Qed.

(** In UTF-8: the occurrences of the text as it was typed. *)
Theorem fixed_hits_utf8 I unicode text t n t' cs off hits vs j l : (off + N.of_nat (length (List.concat cs)) < two64)%N -> bytes (List.concat cs) -> bytes text ->
  session fuel P (stream_calls off cs) = Ok (hits, vs) -> nth_error ks j = Some (EBase UTF8, t') -> nth_error rs j = Some (Some l) ->
  parse I true false unicode text = Ok (t, n) -> reduce text (Some t) = Ok (Some t') ->
  leftmost (found text (List.concat cs) off) (off + N.of_nat (length (List.concat cs)))%N off (hits_of l hits).
Proof.
  intros Ho Hb Ht E Ek Er EP ER. destruct (fixed_hits I unicode text t n t' cs off hits vs j _ l Ho Hb Ht E Ek Er EP ER) as (cps & ws & U & F & LM).
  assert (X : List.concat ws = text); [|rewrite X in LM; auto]. destruct U as (us & G & ->). f_equal. clear -F G. revert us G.
  induction F as [|c w cs ws H F IH]; intros us G; inversion G as [|? u ? us' H1 H2]; subst; auto. f_equal; auto. inversion H as [? ? ? H3| | |]; subst. simpl in H3. apply u8_spec in H1 as (_ & _ & ->). apply u8_spec in H3 as (_ & _ & ->). auto.
Qed.
End Searching.
End Statements.
Print Assumptions fixed_accepted.
Print Assumptions fixed_hits.
Print Assumptions fixed_hits_utf8.

(** * C51: ignoring case *)

(** ICU closes sets under the relation [R], and says how large they then are. *)
Record icu_folds (I : icu) (R : N -> N -> Prop) : Prop := {
  if_refl : forall x, R x x;
  if_close : forall v, canon MAXCP v -> canon MAXCP (snd (ic_close I v)) /\ rs_count (snd (ic_close I v)) = Ok (fst (ic_close I v)) /\
    forall x, (x < MAXCP)%N -> (par (snd (ic_close I v)) x = true <-> exists y, par v y = true /\ R y x)
}.

(** The letters A-Z and a-z *)
Definition ascii_twin (y x : N) : Prop := ((65 <= y < 91 /\ x = y + 32) \/ (97 <= y < 123 /\ x = y - 32))%N.

(** What [y] stands for when case is ignored *)
Definition variant (R : N -> N -> Prop) (o : opts) (y x : N) : Prop :=
  if ascii o then y = x \/ ascii_twin y x \/ (128 <= y /\ R y x)%N else R y x.

Lemma sum_below_le f g n : (forall x, (x < N.of_nat n)%N -> f x = true -> g x = true) -> (sum_below f n <= sum_below g n)%N.
Proof.
  induction n as [|n IH]; intros H; cbn [sum_below]; [lia|]. assert (A : (sum_below f n <= sum_below g n)%N) by (apply IH; intros; apply H; auto; lia).
  specialize (H (N.of_nat n) ltac:(lia)). unfold indicator. destruct (f (N.of_nat n)); [rewrite H by auto; lia|]. destruct (g _); lia.
Qed.
Lemma sum_below_lt f g n y : (forall x, (x < N.of_nat n)%N -> f x = true -> g x = true) -> (y < N.of_nat n)%N -> f y = false -> g y = true -> (sum_below f n < sum_below g n)%N.
Proof.
  induction n as [|n IH]; intros H L F G; [lia|]. cbn [sum_below]. destruct (N.eq_dec y (N.of_nat n)) as [->|NE].
  - rewrite F, G. assert (A : (sum_below f n <= sum_below g n)%N) by (apply sum_below_le; intros; apply H; auto; lia). unfold indicator. lia.
  - assert (A : (sum_below f n < sum_below g n)%N) by (apply IH; auto; [intros; apply H; auto; lia|lia]).
    specialize (H (N.of_nat n) ltac:(lia)). unfold indicator. destruct (f (N.of_nat n)); [rewrite H by auto; lia|]. destruct (g _); lia.
Qed.
Lemma same_count v w : canon MAXCP v -> canon MAXCP w -> (forall x, (x < MAXCP)%N -> par v x = true -> par w x = true) ->
  exists n m, rs_count v = Ok n /\ rs_count w = Ok m /\ (n <= m)%N /\ (n = m -> forall x, (x < MAXCP)%N -> par w x = par v x) /\ ((forall x, (x < MAXCP)%N -> par w x = par v x) -> n = m).
Proof.
  intros C D S. pose proof (count_spec MAXCP v C) as E1. pose proof (count_spec MAXCP w D) as E2. assert (HK : N.of_nat (N.to_nat MAXCP) = MAXCP) by apply N2Nat.id.
  revert E1 E2 HK. generalize (N.to_nat MAXCP) as K. intros K E1 E2 HK. exists (sum_below (par v) K), (sum_below (par w) K). split; auto. split; auto. assert (S' : forall x, (x < N.of_nat K)%N -> par v x = true -> par w x = true) by (rewrite HK; auto).
  split; [apply sum_below_le; auto|]. split.
  - intros E x L. destruct (par w x) eqn:W, (par v x) eqn:V; auto; exfalso.
    + rewrite <- HK in L. pose proof (sum_below_lt (par v) (par w) K x S' L V W) as LT. rewrite E in LT. exact (N.lt_irrefl _ LT).
    + rewrite (S x L V) in W. discriminate.
  - intros E. apply sum_below_ext. intros x L. symmetry. apply E. rewrite <- HK. auto.
Qed.
Lemma par_below v x : canon MAXCP v -> par v x = true -> (x < MAXCP)%N.
Proof. intros C H. apply (ranges_spec _ v C) in H. apply (inrs_bound MAXCP) in H; [lia|apply C]. Qed.

Section Case.
Variables (I : icu) (R : N -> N -> Prop).
Hypothesis IF : icu_folds I R.

Lemma unicode_case v : canon MAXCP v -> exists w b, caseDesensitizeUnicode I v = Ok (w, b) /\ canon MAXCP w /\
  (forall x, (x < MAXCP)%N -> (par w x = true <-> exists y, par v y = true /\ R y x)) /\ (b = false -> w = v).
Proof.
  intros C. unfold caseDesensitizeUnicode. destruct (if_close I R IF v C) as (D & CT & S). destruct (ic_close I v) as [size c]. cbn [fst snd] in *.
  assert (SUB : forall x, (x < MAXCP)%N -> par v x = true -> par c x = true) by (intros x L H; apply S; auto; exists x; split; auto; apply (if_refl I R IF)).
  destruct (same_count v c C D SUB) as (n & m & En & Em & LE & EQ & _). rewrite En. cbn [bind]. rewrite CT in Em. injection Em as <-. destruct (N.eqb_spec size n) as [E|E].
  - exists v, false. split; auto. split; auto. split; auto. intros x L. rewrite <- (EQ (eq_sym E) x L). apply S. auto.
  - exists c, true. split; auto. split; auto. split; auto. discriminate.
Qed.

Lemma case_spec o v : canon MAXCP v -> exists w b, caseDesensitize I v o = Ok (w, b) /\ canon MAXCP w /\
  (forall x, (x < MAXCP)%N -> (par w x = true <-> exists y, par v y = true /\ variant R o y x)) /\ (b = false -> forall x, (x < MAXCP)%N -> par w x = par v x).
Proof.
  intros C. unfold caseDesensitize, variant. destruct (ascii o).
  2: { destruct (unicode_case v C) as (w & b & -> & D & S & E). exists w, b. split; auto. split; auto. split; auto. intros H x _. rewrite E; auto. }
  unfold caseDesensitizeAscii. destruct (ascii_steps v C) as (up & us1 & lo & us2 & E0 & E1 & E2 & E3 & (C2 & P2)).
  assert (SUB : forall x, (x < MAXCP)%N -> par v x = true -> par us2 x = true) by (intros x L H; apply P2; auto).
  assert (VS : exists w, canon MAXCP w /\ (forall x, (x < MAXCP)%N -> (par w x = true <-> exists y, par v y = true /\ (y = x \/ ascii_twin y x \/ (128 <= y /\ R y x)%N))) /\
    (high <- rs_and MAXCP us2 [128; MAXCP]%N ;; (if rs_any high then ' p <- caseDesensitizeUnicode I high ;; if snd p then rs_or us2 (fst p) else Ok us2 else Ok us2)) = Ok w).
  { destruct (and_spec MAXCP us2 [128; MAXCP]%N maxcp_pos C2 high_canon) as (hi & -> & Ch & Ph). cbn [bind].
    assert (HI : forall y, par hi y = true <-> par v y = true /\ (128 <= y)%N).
    { intros y. split.
      - intros H. pose proof (par_below hi y Ch H) as L. rewrite Ph in H by auto. apply andb_true_iff in H as [H1 H2]. rewrite pair_par in H2 by (unfold MAXCP; lia). apply P2 in H1; auto. split; [|lia]. destruct H1 as [H1|[H1|H1]]; auto; lia.
      - intros (H & G). pose proof (par_below v y C H) as L. rewrite Ph by auto. rewrite (SUB y L H), pair_par by (unfold MAXCP; lia). lia. }
    assert (U2 : forall x, (x < MAXCP)%N -> (par us2 x = true <-> exists y, par v y = true /\ (y = x \/ ascii_twin y x))).
    { intros x L. rewrite P2 by auto. unfold ascii_twin. split.
      - intros [H|[(H & G)|(H & G)]]; [exists x; auto|exists (x - 32)%N; split; auto; right; left; lia|exists (x + 32)%N; split; auto; right; right; lia].
      - intros (y & H & [->|[(A & ->)|(A & ->)]]); auto.
        + right; left. split; [lia|]. replace (y + 32 - 32)%N with y by lia. auto.
        + right; right. split; [lia|]. replace (y - 32 + 32)%N with y by lia. auto. }
    destruct (rs_any hi) eqn:Ea.
    - destruct (unicode_case hi Ch) as (w & b & -> & D & S & E). cbn [bind fst snd]. destruct b.
      + destruct (or_spec MAXCP w us2 D C2) as (z & -> & Cz & Pz). exists z. split; auto. split; auto. intros x L. rewrite Pz, orb_true_iff, U2, S by auto. split.
        * intros [(y & H & G)|(y & H & G)]; [exists y; split; auto; tauto|]. apply HI in H as (H & H'). exists y. auto.
        * intros (y & H & [G|[G|(G & G')]]); [left; eauto|left; eauto|]. right. exists y. split; auto. apply HI. auto.
      + specialize (E eq_refl). subst w. exists us2. split; auto. split; auto. intros x L. rewrite U2 by auto. split.
        * intros (y & H & G). exists y. split; auto; tauto.
        * intros (y & H & [G|[G|(G & G')]]); [eauto|eauto|]. assert (K : par hi x = true) by (apply S; auto; exists y; split; auto; apply HI; auto). apply HI in K as (K & _). exists x. auto.
    - exists us2. split; auto. split; auto. intros x L. rewrite U2 by auto. split.
      + intros (y & H & G). exists y. split; auto; tauto.
      + intros (y & H & [G|[G|(G & G')]]); [eauto|eauto|]. exfalso. assert (K : rs_any hi = true) by (apply (rs_any_par MAXCP hi Ch); exists y; apply HI; auto). congruence. }
  destruct VS as (w & D & W & E4).
  assert (SW : forall x, (x < MAXCP)%N -> par v x = true -> par w x = true) by (intros x L H; apply W; auto; exists x; auto).
  destruct (same_count v w C D SW) as (n & m & En & Em & LE & EQ & _). exists w, (n <? m)%N. rewrite En. cbn [bind]. rewrite E0. cbn [bind]. rewrite <- E1. rewrite E2. cbn [bind]. rewrite <- E3.
  destruct (rs_and MAXCP us2 [128; MAXCP]%N) as [hi| | |]; try discriminate. cbn [bind] in *. rewrite E4. cbn [bind]. rewrite Em. cbn [bind]. split; auto. split; auto. split; auto.
  intros B. apply EQ. apply N.ltb_ge in B. lia.
Qed.

(** One character *)
Lemma literal_case o c : 0 <= c < 1114112 -> exists p a, literal_node I o c = Ok p /\ p = PAtom a /\
  forall e w, enc_atom e a w <-> exists x, (if cased o then x = Z.to_N c else (x < 1114112)%N /\ variant R o (Z.to_N c) x) /\ encodes e (Z.of_N x) w.
Proof.
  intros L. unfold literal_node. destruct (cased o).
  - exists (PAtom (ALit c)), (ALit c). split; auto. split; auto. intros e w. cbn [enc_atom]. split; [intros H; exists (Z.to_N c); split; auto; rewrite Z2N.id by lia; auto|].
    intros (x & -> & H). rewrite Z2N.id in H by lia. auto.
  - destruct (set_spec MAXCP [] (Z.to_N c) true maxcp_pos) as (v & -> & Cv & Pv); [split; [constructor|reflexivity|constructor]|unfold MAXCP; lia|]. cbn [bind].
    destruct (case_spec o v Cv) as (w0 & b & -> & Cw & Pw & Eb). cbn [bind fst snd].
    assert (V : forall y, par v y = true <-> y = Z.to_N c).
    { intros y. split; [intros H; pose proof (par_below v y Cv H) as Ly; rewrite Pv in H by auto; destruct (N.eqb_spec y (Z.to_N c)); auto; discriminate H|]. intros ->. rewrite Pv by (unfold MAXCP; lia). rewrite N.eqb_refl. auto. }
    assert (W : forall x, (x < MAXCP)%N -> (par w0 x = true <-> variant R o (Z.to_N c) x)).
    { intros x Lx. rewrite Pw by auto. split; [intros (y & Hy & H); apply V in Hy; subst; auto|intros H; exists (Z.to_N c); split; auto; apply V; auto]. }
    destruct b.
    + exists (class_node w0), (AClass w0 bs_empty true). split; auto. split; auto. intros e w. cbn [enc_atom].
      assert (NB : ~ exists b, w = [b] /\ has bs_empty b). { intros (b & _ & H). apply (has_tb bs_empty b) in H; [|apply empty_wf]. destruct H as (Hb & H). rewrite empty_tb in H by auto. discriminate. }
      assert (IN : forall x, in_class w0 x <-> (x < 1114112)%N /\ variant R o (Z.to_N c) x).
      { intros x. destruct (ranges_spec _ w0 Cw) as (_ & Pc & _). unfold in_class. rewrite <- Pc. split; [intros H; pose proof (par_below w0 x Cw H) as Lx; split; [exact Lx|apply W; auto]|intros (Lx & H); apply W; auto]. }
      split; [intros [(x & H & G)|H]; [exists x; split; auto; apply IN; auto|contradiction]|]. intros (x & H & G). left. exists x. split; auto. apply IN. auto.
    + exists (PAtom (ALit c)), (ALit c). split; auto. split; auto. intros e w. cbn [enc_atom]. split.
      * intros H. exists (Z.to_N c). split; [split; [lia|]|rewrite Z2N.id by lia; auto]. apply W; [unfold MAXCP; lia|]. rewrite Eb by (auto; unfold MAXCP; lia). apply V. auto.
      * intros (x & (Lx & H) & G). apply W in H; [|exact Lx]. rewrite Eb in H by auto. apply V in H. subst x. rewrite Z2N.id in G by lia. auto.
Qed.
End Case.

(** * Rows of characters in general *)

Lemma case_total I o v : icu_ok I -> canon MAXCP v -> exists p, caseDesensitize I v o = Ok p.
Proof.
  intros IO C. assert (U : forall v, canon MAXCP v -> exists w b, caseDesensitizeUnicode I v = Ok (w, b) /\ canon MAXCP w).
  { clear v C. intros v C. unfold caseDesensitizeUnicode. rewrite (count_spec MAXCP v C). cbn [bind]. pose proof (io_close I IO v C) as H. destruct (ic_close I v) as [s c]. destruct (s =? _)%N; eauto. }
  unfold caseDesensitize. destruct (ascii o); [|destruct (U v C) as (w & b & -> & _); eauto]. unfold caseDesensitizeAscii. rewrite (count_spec MAXCP v C). cbn [bind].
  destruct (ascii_steps v C) as (up & us1 & lo & us2 & -> & E1 & E2 & E3 & (C2 & _)). cbn [bind]. rewrite <- E1, E2. cbn [bind]. rewrite <- E3.
  destruct (and_spec MAXCP us2 [128; MAXCP]%N maxcp_pos C2 high_canon) as (hi & -> & Ch & _). cbn [bind].
  assert (X : exists w, (if rs_any hi then ' p <- caseDesensitizeUnicode I hi ;; (if snd p then rs_or us2 (fst p) else Ok us2) else Ok us2) = Ok w /\ canon MAXCP w).
  { destruct (rs_any hi); eauto. destruct (U hi Ch) as (w & b & -> & D). cbn [bind fst snd]. destruct b; eauto. destruct (or_spec MAXCP w us2 D C2) as (z & -> & Cz & _). eauto. }
  destruct X as (w & -> & D). cbn [bind]. rewrite (count_spec MAXCP w D). cbn [bind]. eauto.
Qed.
Lemma literal_total I o c : icu_ok I -> 0 <= c < 1114112 -> exists p, literal_node I o c = Ok p.
Proof.
  intros IO L. unfold literal_node. destruct (cased o); eauto. destruct (set_spec MAXCP [] (Z.to_N c) true maxcp_pos) as (v & -> & Cv & _); [split; [constructor|reflexivity|constructor]|unfold MAXCP; lia|]. cbn [bind].
  destruct (case_total I o v IO Cv) as ((w & b) & ->). cbn [bind]. eauto.
Qed.
Lemma literals_total I o cs : icu_ok I -> Forall (fun c => 1 <= c) cs -> Forall (fun c => c < 1114112) cs -> exists ps, Forall2 (fun c p => literal_node I o c = Ok p) cs ps.
Proof.
  intros IO F G. induction F as [|c cs H F IH]; inversion G; subst; [exists []; constructor|]. destruct IH as (ps & HP); auto. destruct (literal_total I o c IO) as (p & Hp); [lia|]. exists (p :: ps). constructor; auto.
Qed.

Lemma row_of_chars I insensitive unicode text c cs p ps : Forall (fun c => 1 <= c) (c :: cs) -> transform_utf8_to_unicode text = Ok (c :: cs) ->
  literal_node I (first_opts insensitive unicode) c = Ok p -> Forall2 (fun c p => literal_node I (first_opts insensitive unicode) c = Ok p) cs ps ->
  parse I true insensitive unicode text = Ok (row p ps, (2 * length (c :: cs))%nat).
Proof.
  intros F T Hp HP. unfold parse. rewrite T. cbn [bind]. rewrite lex_literal by auto. fold (first_opts insensitive unicode). cbn [map]. rewrite <- (app_nil_r (TChar c :: map TChar cs)). cbn [app].
  rewrite (plain_alt I _ (TChar c) (map TChar cs) c cs p ps); auto.
  - cbn [bind]. rewrite map_length. cbn [length]. replace (S (1 + 2 * length cs)) with (2 * S (length cs))%nat by lia. auto.
  - left. auto.
  - apply chars_plain.
  - cbn [length]. rewrite app_nil_r, map_length. lia.
Qed.

Lemma rfc_bound c w : rfc3629 c w -> c < 1114112.
Proof. destruct 1; unfold scalar in *; lia. Qed.
Lemma utf8_bound cps text : utf8_text cps text -> Forall (fun c => c < 1114112) cps.
Proof. intros (ws & F & _). induction F; constructor; auto. eapply rfc_bound; eauto. Qed.

(** As fixed_exactly, for all options *)
Lemma fixed_any I insensitive unicode text t n : icu_ok I -> bytes text -> parse I true insensitive unicode text = Ok (t, n) ->
  exists c cs p ps, utf8_text (c :: cs) text /\ Forall (fun c => 1 <= c) (c :: cs) /\ literal_node I (first_opts insensitive unicode) c = Ok p /\
    Forall2 (fun c p => literal_node I (first_opts insensitive unicode) c = Ok p) cs ps /\ t = row p ps.
Proof.
  intros IO B E. pose proof (transform_spec (S (length text)) text B ltac:(lia)) as TS. destruct (transform_utf8_to_unicode text) as [cps| | |] eqn:T; try (unfold parse in E; rewrite T in E; discriminate).
  unfold transform_utf8_to_unicode in T. rewrite T in TS. destruct TS as (ws & EW & F2). pose proof (reads_bound _ _ F2) as RB. destruct (first_small cps) as [F|(a & c & b & -> & F & Hc)].
  - destruct cps as [|c cs]; [exfalso|].
    + unfold parse, transform_utf8_to_unicode in E. rewrite T in E. cbn [bind length lex] in E. change (6 * length (@nil tok) + 6)%nat with 6%nat in E. rewrite (proj2 (bad_alt I _ 6 ltac:(lia))) in E. discriminate.
    + destruct (literals_total I (first_opts insensitive unicode) (c :: cs) IO F RB) as (ps0 & HP0). inversion HP0 as [|? p ? ps Hp HP]; subst ps0. rewrite (row_of_chars I insensitive unicode text c cs p ps F T Hp HP) in E. injection E as <- <-.
      exists c, cs, p, ps. split; auto. exists ws. split; auto. clear -F F2. revert F. induction F2 as [|x w xs ws [_ [->|H]] F2 IH]; intros F; inversion F; subst; constructor; auto; lia.
  - exfalso. unfold parse, transform_utf8_to_unicode in E. rewrite T in E. cbn [bind] in E. rewrite lex_literal_bad in E by auto. fold (first_opts insensitive unicode) in E. destruct a as [|x a].
    + change (6 * length (map TChar [] ++ [TBad]) + 6)%nat with 12%nat in E. cbn [map app] in E. rewrite (proj1 (bad_alt I _ 12 ltac:(lia))) in E. discriminate.
    + apply Forall_app in RB as [RB _]. destruct (literals_total I (first_opts insensitive unicode) (x :: a) IO F RB) as (ps0 & HP0). inversion HP0 as [|? p ? ps Hp HP]; subst ps0.
      cbn [map app] in E. rewrite (plain_alt I _ (TChar x) (map TChar a) x a p ps) in E; auto.
      * discriminate.
      * left; auto.
      * apply chars_plain.
      * cbn [length]. rewrite app_length, map_length. simpl. lia.
Qed.

(** * C51: what a fixed string matches, with or without regard to case *)

(** The spellings of a character *)
Definition spelled (R : N -> N -> Prop) (insensitive unicode : bool) (c x : Z) : Prop :=
  if insensitive then 0 <= x < 1114112 /\ variant R (first_opts insensitive unicode) (Z.to_N c) (Z.to_N x) else x = c.

Lemma folds_ok I R : icu_folds I R -> (forall l, ic_name I l < 1114112) -> (forall l b, safe (canon MAXCP) (ic_prop I l b)) -> icu_ok I.
Proof. intros F A B. split; auto. intros v C. apply (if_close I R F v C). Qed.

Lemma literal_spelled I R insensitive unicode c p : icu_folds I R -> 1 <= c < 1114112 -> literal_node I (first_opts insensitive unicode) c = Ok p ->
  exists a, p = PAtom a /\ forall e w, enc_atom e a w <-> exists x, spelled R insensitive unicode c x /\ encodes e x w.
Proof.
  intros IF L E. destruct (literal_case I R IF (first_opts insensitive unicode) c ltac:(lia)) as (p' & a & E' & -> & H). rewrite E in E'. injection E' as ->. exists a. split; auto. intros e w. rewrite H. unfold spelled. cbn [first_opts cased]. destruct insensitive; cbn [negb].
  - split; [intros (x & (A & B) & G); exists (Z.of_N x); rewrite N2Z.id; split; auto; split; auto; lia|]. intros (x & (A & B) & G). exists (Z.to_N x). rewrite Z2N.id by lia. split; auto. split; auto. lia.
  - split; [intros (x & -> & G); exists c; rewrite Z2N.id in G by lia; auto|]. intros (x & -> & G). exists (Z.to_N c). rewrite Z2N.id by lia. auto.
Qed.

(** A fixed string matches the encodings of the spellings of its characters, in order. *)
Theorem insensitive_language I R insensitive unicode text t n e : icu_ok I -> icu_folds I R -> bytes text -> parse I true insensitive unicode text = Ok (t, n) ->
  exists cps, utf8_text cps text /\ flat t /\ forall w, lang (enc_atom e) t w <-> exists xs ws, Forall2 (spelled R insensitive unicode) cps xs /\ Forall2 (encodes e) xs ws /\ w = List.concat ws.
Proof.
  intros IO IF B E. destruct (fixed_any I insensitive unicode text t n IO B E) as (c & cs & p & ps & U & F & Hp & HP & ->). exists (c :: cs). split; auto. pose proof (utf8_bound _ _ U) as UB. inversion F as [|? ? Fc Fs]; inversion UB as [|? ? Uc Us]; subst.
  destruct (literal_spelled I R insensitive unicode c p IF ltac:(lia) Hp) as (a & -> & Ha).
  assert (X : Forall flat ps /\ forall us, Forall2 (lang (enc_atom e)) ps us <-> exists xs, Forall2 (spelled R insensitive unicode) cs xs /\ Forall2 (encodes e) xs us).
  { clear - IF Fs Us HP. revert Fs Us. induction HP as [|c p cs ps Hp HP IH]; intros Fs Us.
    - split; auto. intros us. split; [intros H; inversion H; exists []; auto|]. intros (xs & H & G). inversion H; subst. inversion G; subst. constructor.
    - inversion Fs as [|? ? P1 P2]; inversion Us as [|? ? Q1 Q2]; subst. destruct IH as (IH1 & IH2); auto. destruct (literal_spelled I R insensitive unicode c p IF ltac:(lia) Hp) as (a & -> & Ha). split; [constructor; simpl; auto|]. intros us. split.
      + intros H. inversion H as [|? u ? us' H1 H2]; subst. simpl in H1. apply Ha in H1 as (x & X1 & X2). apply IH2 in H2 as (xs & Y1 & Y2). exists (x :: xs). auto.
      + intros (xs & H & G). inversion H as [|? x ? xs' H1 H2]; subst. inversion G as [|? u ? us' G1 G2]; subst. constructor; [simpl; apply Ha; eauto|apply IH2; eauto]. }
  destruct X as (FL & X). split; [apply (row_inv flat); simpl; auto|]. intros w. rewrite row_lang. split.
  - intros (u & us & -> & Hu & H). simpl in Hu. apply Ha in Hu as (x & X1 & X2). apply X in H as (xs & Y1 & Y2). exists (x :: xs), (u :: us). auto.
  - intros (xs & ws & H & G & ->). inversion H as [|? x ? xs' H1 H2]; subst. inversion G as [|? u ? us G1 G2]; subst. exists u, us. split; auto. split; [simpl; apply Ha; eauto|apply X; eauto].
Qed.
Print Assumptions insensitive_language.

(** * C50: escaping *)

(** With a backslash before each special character a pattern is parsed as the fixed string is. *)
Theorem escaped_as_fixed I insensitive unicode cps text text' : icu_ok I -> cps <> [] -> Forall (fun c => 1 <= c) cps -> utf8_text cps text -> utf8_text (escaped cps) text' ->
  exists t n, parse I true insensitive unicode text = Ok (t, n) /\ parse I false insensitive unicode text' = Ok (t, n).
Proof.
  intros IO NE F U U'. destruct cps as [|c cs]; [congruence|]. destruct (literals_total I (first_opts insensitive unicode) (c :: cs) IO F (utf8_bound _ _ U)) as (ps0 & HP0). inversion HP0 as [|? p ? ps Hp HP]; subst ps0.
  exists (row p ps), (2 * length (c :: cs))%nat. split; [apply row_of_chars; auto; apply utf8_transform; auto|].
  unfold parse. rewrite (utf8_transform _ _ U'). cbn [bind]. destruct (lex_escaped I (c :: cs) (length (escaped (c :: cs))) (escaped_length _) F) as (ks & -> & K). inversion K as [|k ? ks' ? Kc Ks]; subst. fold (first_opts insensitive unicode).
  rewrite <- (app_nil_r (k :: ks')). cbn [app]. rewrite (plain_alt I _ k ks' c cs p ps); auto.
  - cbn [bind]. assert (L : length ks' = length cs) by (clear -Ks; induction Ks; simpl; auto). rewrite L. cbn [length]. replace (S (1 + 2 * length cs)) with (2 * S (length cs))%nat by lia. auto.
  - cbn [length]. rewrite app_nil_r. lia.
Qed.
Print Assumptions escaped_as_fixed.

Section Insensitive.
Variable sort : nat -> nat -> list (list bset) -> list (list bset).
Variable sort_len : list (list bset) -> list (list bset).
Hypothesis sort_perm : forall a b l, Permutation l (sort a b l).
Hypothesis sort_len_perm : forall l, Permutation l (sort_len l).
Hypothesis sort_len_sorted : forall l, StronglySorted (fun a b => (length a <= length b)%nat) (sort_len l).
Notation stream_calls off cs := (chunk_calls off cs ++ [CClose true]).

(** A text of the fixed string with characters [cps] *)
Definition spells R insensitive unicode e (cps : list Z) (w : list N) : Prop :=
  exists xs ws, Forall2 (spelled R insensitive unicode) cps xs /\ Forall2 (encodes e) xs ws /\ w = List.concat ws.

(** The hits of a fixed string, with or without regard to case, are found from left to right at the
    least offset where one of its spellings is. *)
Theorem insensitive_hits ks rs P fuel I R insensitive unicode text t n t' cs off hits vs j e l : created sort sort_len ks rs P -> (2 * length (p_words P) <= fuel)%nat ->
  icu_ok I -> icu_folds I R -> (off + N.of_nat (length (List.concat cs)) < two64)%N -> bytes (List.concat cs) -> bytes text ->
  session fuel P (stream_calls off cs) = Ok (hits, vs) -> nth_error ks j = Some (e, t') -> nth_error rs j = Some (Some l) ->
  parse I true insensitive unicode text = Ok (t, n) -> reduce text (Some t) = Ok (Some t') ->
  let stop := (off + N.of_nat (length (List.concat cs)))%N in
  exists cps M, utf8_text cps text /\ leftmost M stop off (hits_of l hits) /\
    (forall s x, (off <= s)%N -> In x (M s) -> (s < x <= stop)%N /\ spells R insensitive unicode e cps (slice (List.concat cs) off s x)) /\
    (forall s x, (off <= s < x)%N -> (x <= stop)%N -> spells R insensitive unicode e cps (slice (List.concat cs) off s x) -> M s <> []).
Proof.
  intros C HV IO IF Ho Hb Ht E Ek Er EP ER stop. destruct (insensitive_language I R insensitive unicode text t n e IO IF Ht EP) as (cps & U & FL & LG).
  rewrite (flat_reduce text _ FL) in ER. injection ER as <-.
  destruct (searched_hits_leftmost sort sort_len sort_perm sort_len_perm sort_len_sorted ks rs P fuel C HV cs off hits vs j e _ l Ho Hb E Ek Er) as (M & LM & M1 & M2).
  exists cps, M. split; auto. split; auto. split.
  - intros s x A B. destruct (M1 s x A B) as (D & G). split; auto. apply flat_ra_lang, LG in G. auto.
  - intros s x A B G. apply (M2 s x A B). apply flat_ra_lang, LG. auto.
Qed.
End Insensitive.
Print Assumptions insensitive_hits.

(** With ASCII case, texts that differ only in the case of the letters A-Z match the same. *)
Theorem ascii_case_irrelevant I R text text' t n t' n' cps cps' e w : icu_ok I -> icu_folds I R -> utf8_text cps text -> utf8_text cps' text' ->
  Forall2 (fun c d => c = d \/ (65 <= c <= 90 /\ d = c + 32) \/ (97 <= c <= 122 /\ d = c - 32)) cps cps' ->
  parse I true true false text = Ok (t, n) -> parse I true true false text' = Ok (t', n') -> (lang (enc_atom e) t w <-> lang (enc_atom e) t' w).
Proof.
  intros IO IF U U' D E E'.
  destruct (insensitive_language I R true false text t n e IO IF (utf8_bytes _ _ U) E) as (c1 & U1 & _ & L1). destruct (insensitive_language I R true false text' t' n' e IO IF (utf8_bytes _ _ U') E') as (c2 & U2 & _ & L2).
  assert (c1 = cps) by (apply utf8_transform in U; apply utf8_transform in U1; congruence). assert (c2 = cps') by (apply utf8_transform in U'; apply utf8_transform in U2; congruence). subst c1 c2. clear U1 U2 E E'.
  rewrite L1, L2. clear L1 L2.
  assert (NN : forall cps text, utf8_text cps text -> Forall (fun c => 0 <= c) cps). { clear. intros cps text (ws & F & _). induction F as [|c w cs ws H F IH]; constructor; auto. destruct H; lia. }
  apply NN in U, U'. clear NN.
  assert (V : forall c d x, (c = d \/ (65 <= c <= 90 /\ d = c + 32) \/ (97 <= c <= 122 /\ d = c - 32)) -> spelled R true false c x -> spelled R true false d x).
  { intros c d x [->|H]; auto. unfold spelled, variant, ascii_twin. cbn [first_opts ascii negb]. intros (A & B). split; auto. destruct B as [B|[B|(B & _)]]; [right; left|left|]; lia. }
  assert (S : forall xs, Forall2 (spelled R true false) cps xs <-> Forall2 (spelled R true false) cps' xs).
  { clear U U'. induction D as [|c d cs ds H D IH]; intros xs; split; intros G; inversion G; subst; constructor; try apply IH; auto; [eapply V; eauto|]. eapply V; [|eauto]. destruct H as [->|[(A & ->)|(A & ->)]]; auto; [right; right; lia|right; left; lia]. }
  split; intros (xs & ws & G & H); exists xs, ws; split; auto; apply S; auto.
Qed.
Print Assumptions ascii_case_irrelevant.

(** Refuted: that ignoring case is symmetric with ASCII case.  The Kelvin sign U+212A, which ICU
    closes with k, matches k; k does not match the Kelvin sign. *)
Theorem ascii_case_symmetric_refuted I R : icu_folds I R -> R 8490%N 107%N ->
  exists a b pa pb, literal_node I (first_opts true false) 8490 = Ok (PAtom a) /\ literal_node I (first_opts true false) 107 = Ok (PAtom b) /\
    enc_atom (EBase UTF8) a pa /\ rfc3629 107 pa /\ rfc3629 8490 pb /\ ~ enc_atom (EBase UTF8) b pb.
Proof.
  intros IF RK. destruct (literal_case I R IF (first_opts true false) 8490 ltac:(lia)) as (p & a & E & -> & H). destruct (literal_case I R IF (first_opts true false) 107 ltac:(lia)) as (q & b & E' & -> & H').
  exists a, b, [107%N], [226; 132; 170]%N. split; auto. split; auto. assert (K : rfc3629 8490 [226; 132; 170]%N) by (apply (U8_3 2 4 42); unfold scalar; lia). split; [|split; [apply (U8_1 107); lia|split; auto]].
  - apply H. exists 107%N. split; [|constructor; apply (U8_1 107); lia]. split; [lia|]. right. right. split; [lia|exact RK].
  - intros G. apply H' in G as (x & (_ & V) & X). inversion X as [? ? ? S| | |]; subst. simpl in S. assert (Ex : Z.of_N x = 8490). { apply u8_spec in S as (_ & _ & S). apply u8_spec in K as (_ & _ & K). destruct V as [V|[V|(V & _)]]; try lia; exfalso.
      - subst x. vm_compute in S. discriminate.
      - unfold ascii_twin in V. destruct V as [V|(V & ->)]; [lia|]. vm_compute in S. discriminate. }
    unfold variant, ascii_twin in V. cbn in V. lia.
Qed.
Print Assumptions ascii_case_symmetric_refuted.

(** * C47: where the reserve is not enough *)

(** Refuted: that the reserve is enough for every text.  For 2^30 letters it wraps to zero, and 2^31
    nodes are added. *)
Theorem reserve_wraps_refuted I unicode k : N.of_nat k = (2 ^ 30)%N -> exists t n, parse I true false unicode (repeat 97%N k) = Ok (t, n) /\ N.of_nat n = (2 ^ 31)%N /\ reserved (repeat 97%N k) = 0%N.
Proof.
  intros K. exists (literals (repeat 97 k)), (2 * k)%nat. split; [|split].
  - apply fixed_exactly; [apply Forall_forall; intros x H; apply repeat_spec in H; subst; reflexivity|]. exists (repeat 97 k). split; [|split; [|split; [|split; auto]]].
    + exists (repeat [97%N] k). clear K. split; [induction k as [|k IH]; simpl; constructor; auto; apply (U8_1 97); lia|]. induction k as [|k IH]; simpl; congruence.
    + destruct k; [discriminate K|discriminate].
    + apply Forall_forall. intros x H. apply repeat_spec in H. lia.
    + rewrite repeat_length. auto.
  - rewrite Nat2N.inj_mul, K. reflexivity.
  - unfold reserved, nodesUpperBound. rewrite repeat_length, K. assert (X : forall k p, extra_nodes p (repeat 97%N k) = 0%N) by (clear; induction k as [|k IH]; intros p; cbn [repeat extra_nodes]; [|rewrite IH]; reflexivity). rewrite X. reflexivity.
Qed.
Print Assumptions reserve_wraps_refuted.

(** * Cases *)

Lemma small_folds : icu_folds small_icu eq.
Proof.
  split; auto. intros v C. cbn [small_icu ic_close fst snd]. split; auto. split; [rewrite (count_spec MAXCP v C); auto|]. intros x _. split; [eauto|]. intros (y & H & ->). auto.
Qed.

(** `a+é` as a fixed string, and `Kx` without regard to case *)
Definition fx_text : list N := [97; 43; 195; 169]%N.
Definition fx_text2 : list N := [75; 120]%N.
Definition fx_tree2 : pnode := PCat (PAtom (AClass [75; 76; 107; 108]%N bs_empty true)) (PAtom (AClass [88; 89; 120; 121]%N bs_empty true)).
Example fx_bytes : bytes fx_text /\ bytes fx_text2.
Proof. split; repeat (constructor; [lia|]); constructor. Qed.
Example fx_utf8 : utf8_text [97; 43; 233] fx_text.
Proof. exists [[97]; [43]; [195; 169]]%N. split; [|reflexivity]. constructor; [apply (U8_1 97); lia|]. constructor; [apply (U8_1 43); lia|]. constructor; [apply (U8_2 3 41); lia|]. constructor. Qed.
Example fx_parsed : parse small_icu true false false fx_text = Ok (literals [97; 43; 233], 6%nat) /\ parse small_icu true true false fx_text2 = Ok (fx_tree2, 4%nat) /\
  parse small_icu true false false [97; 195; 65]%N = Throw.
Proof.
  split; [|split; vm_compute; reflexivity]. apply fixed_exactly; [apply fx_bytes|]. exists [97; 43; 233]. split; [exact fx_utf8|]. split; [discriminate|]. split; [repeat (constructor; [lia|]); constructor|auto].
Qed.
(** The pattern `a\+é` is parsed in the same way; `a+é` is not. *)
Example fx_escaped : exists t n, parse small_icu true true true fx_text = Ok (t, n) /\ parse small_icu false true true [97; 92; 43; 195; 169]%N = Ok (t, n) /\ parse small_icu false true true fx_text <> Ok (t, n).
Proof.
  destruct (escaped_as_fixed small_icu true true [97; 43; 233] fx_text [97; 92; 43; 195; 169]%N small_icu_ok) as (t & n & E1 & E2).
  - discriminate.
  - repeat (constructor; [lia|]). constructor.
  - exact fx_utf8.
  - exists [[97]; [92]; [43]; [195; 169]]%N. split; [|reflexivity]. constructor; [apply (U8_1 97); lia|]. constructor; [apply (U8_1 92); lia|]. constructor; [apply (U8_1 43); lia|]. constructor; [apply (U8_2 3 41); lia|]. constructor.
  - exists t, n. split; auto. split; auto. rewrite <- E1. vm_compute. discriminate.
Qed.

Definition fx_r : pnode := fst (makeBinopsRightAssociative (literals [97; 43; 233])).
Definition fx_ks : list (encoder * pnode) := [(EBase UTF8, fx_r); (EBase UTF8, fx_tree2)].
Definition fx_P : program := match (' (g, rs) <- add_all 2000 [v_new] 0 (map (fun k => (factory_enc no_sort sort_by_len (fst k), Some (snd k))) fx_ks) ;; gf <- finalizeGraph 100 false 4294967295 g ;; createProgram 20 200 gf) with
  Ok P => P | _ => {| p_words := []; p_maxLabel := 0; p_maxCheck := 0; p_filterOff := 0; p_filter := 0 |} end.

Lemma fx_keywords : keywords_ok fx_ks.
Proof.
  split; [|vm_compute; discriminate]. intros e t [[= <- <-]|[[= <- <-]|[]]]; (split; [exact Logic.I|]).
  - apply (parsed_buildable fx_text (literals [97; 43; 233])); [apply literals_parsed; reflexivity|reflexivity].
  - apply (parsed_buildable fx_text2 fx_tree2); [|reflexivity]. apply (parse_parsed small_icu true true false fx_text2 fx_tree2 4 0 small_icu_ok (proj2 fx_bytes)).
    + apply runs_within_ok. reflexivity.
    + vm_compute. reflexivity.
    + apply fx_parsed.
Qed.

Lemma fx_created : created no_sort sort_by_len fx_ks [Some 0%N; Some 1%N] fx_P.
Proof.
  assert (HF : (keywords_fuel no_sort sort_by_len fx_ks <= 2000)%nat) by (apply Nat.leb_le; vm_compute; reflexivity).
  assert (X : exists g, add_all 2000 [v_new] 0 (map (fun k => (factory_enc no_sort sort_by_len (fst k), Some (snd k))) fx_ks) = Ok (g, [Some 0%N; Some 1%N])) by (eexists; vm_compute; reflexivity). destruct X as (g & EA).
  assert (X : exists gf, finalizeGraph 100 false 4294967295 g = Ok gf /\ (2 <= length (nodup Nat.eq_dec (outs gf 0)))%nat /\ fits32 gf /\ succeeded (createProgram 20 200 gf) = true).
  { vm_compute in EA. injection EA as <-. eexists. split; [vm_compute; reflexivity|]. split; [apply Nat.leb_le; vm_compute; reflexivity|]. split; vm_compute; reflexivity. }
  destruct X as (gf & EF & Z & F32 & CS).
  assert (CP : createProgram 20 200 gf = Ok fx_P).
  { unfold fx_P. rewrite EA. cbn [bind]. rewrite EF. cbn [bind]. destruct (createProgram 20 200 gf); [reflexivity|discriminate CS..]. }
  exists 2000%nat, 100%nat, 20%nat, 200%nat, false, 4294967295%N, g, gf. split; [exact fx_keywords|]. split; auto. split; auto. split; auto. split; auto. apply two_roots. auto.
Qed.

(** In `a+éakXa+éKx` *)
Definition fx_data : list (list N) := [[97; 43; 195]; [169; 97; 107; 88; 97; 43]; [195; 169; 75; 120]]%N.
Definition fx_hits : list hit := [{| h_start := 5; h_end := 9; h_label := 0 |}; {| h_start := 10; h_end := 12; h_label := 1 |}; {| h_start := 12; h_end := 16; h_label := 0 |}; {| h_start := 16; h_end := 18; h_label := 1 |}].
Example fx_searched : (2 * length (p_words fx_P) <= 400)%nat /\
  session 400 fx_P (chunk_calls 5 fx_data ++ [CClose true]) =
    Ok (fx_hits, [5; 12; 18; 0]%N).
Proof. split; [apply Nat.leb_le; vm_compute; reflexivity|]. vm_compute. reflexivity. Qed.
Example fx_occurrences : leftmost (found fx_text (List.concat fx_data) 5) 18 5 [(5, 9); (12, 16)]%N.
Proof.
  apply (fixed_hits_utf8 no_sort sort_by_len no_sort_perm by_len_perm by_len_sorted fx_ks _ fx_P 400 fx_created (proj1 fx_searched) small_icu false fx_text (literals [97; 43; 233]) 6 fx_r fx_data 5 fx_hits [5; 12; 18; 0]%N 0 0).
  - reflexivity.
  - repeat (constructor; [lia|]); constructor.
  - apply fx_bytes.
  - apply fx_searched.
  - reflexivity.
  - reflexivity.
  - apply fx_parsed.
  - reflexivity.
Qed.
Example fx_spellings : exists cps M, utf8_text cps fx_text2 /\ leftmost M 18 5 [(10, 12); (16, 18)]%N /\
  (forall s x, (5 <= s)%N -> In x (M s) -> (s < x <= 18)%N /\ spells eq true false (EBase UTF8) cps (slice (List.concat fx_data) 5 s x)) /\
  (forall s x, (5 <= s < x)%N -> (x <= 18)%N -> spells eq true false (EBase UTF8) cps (slice (List.concat fx_data) 5 s x) -> M s <> []).
Proof.
  apply (insensitive_hits no_sort sort_by_len no_sort_perm by_len_perm by_len_sorted fx_ks _ fx_P 400 small_icu eq true false fx_text2 fx_tree2 4 fx_tree2 fx_data 5 fx_hits [5; 12; 18; 0]%N 1 (EBase UTF8) 1 fx_created (proj1 fx_searched) small_icu_ok small_folds).
  - reflexivity.
  - repeat (constructor; [lia|]); constructor.
  - apply fx_bytes.
  - apply fx_searched.
  - reflexivity.
  - reflexivity.
  - apply fx_parsed.
  - reflexivity.
Qed.
(** A Latin-1 letter has no encoding in ASCII: the fixed string is refused. *)
Example fx_refused : add_parsed no_sort sort_by_len 2000 (EBase ASCII) [v_new] fx_text (literals [97; 43; 233]) 0 = Throw /\
  (forall w, ~ encodes (EBase ASCII) 233 w) /\ exists g, add_parsed no_sort sort_by_len 2000 (EBase UTF8) [v_new] fx_text (literals [97; 43; 233]) 0 = Ok g.
Proof.
  split; [vm_compute; reflexivity|]. split; [|eexists; vm_compute; reflexivity]. intros w H. apply encodes_iff in H; [|exact Logic.I]. destruct H as (<- & H). apply H. reflexivity.
Qed.
