(** C56: a pattern's text has one meaning. *)
From Coq Require Import String Sorting.Permutation Sorting.Sorted.
From Verif Require Import VmSpec VmIdeal VmSim VmGeneric VmCalls VmCheck Thm_VmRun.
From Verif Require Import Base NfaModel VmModel VmRunnable VmSearch CodegenLayout CodegenModel CodegenSpec CodegenTotal CodegenRun Thm_Codegen RangeSetModel RangeSetProofs ByteSetModel ByteSetProofs Thm_ByteSet UtfModel UtfProofs Thm_Utf EscModel
  EncModel EncProofs EncUtf Thm_Enc PatModel PatSpec RewriteProofs Thm_Rewrite BuildModel BuildSpec BuildTree BuildEnc BuildTail ReduceBuild ReduceEmpty ReduceSub Thm_Build OptModel OptSpec OptLive OptZero OptPipe Thm_Pipe Thm_Api
  ParseModel ParseSets ParseGrammar ParseRun ParseText ParseFixed ParseFull Thm_Parse Thm_Fixed Thm_Class Thm_Meaning Thm_Text ParseRead.
Import PatSpec.
Import ListNotations.
Open Scope list_scope.
Open Scope Z_scope.

(** The tokens of a class without bytes are read as one expression. *)
Theorem class_read_once e e' ts : written Whole e ts -> written Whole e' ts -> e = e'.
Proof. apply written_once. Qed.
Print Assumptions class_read_once.

(** So a class stands for what its expression says, however the expression is found. *)
Theorem class_as_read I R o ts c n e : icu_ok I -> icu_folds I R -> Forall tok_ok ts -> charclass I o ts c n -> written Whole e ts ->
  (forall x, in_class (cs_cps c) x <-> (x < MAXCP)%N /\ mean I R o e x) /\
  forall enc w, lang (enc_atom enc) (cset_node c) w <-> exists x, (x < MAXCP)%N /\ mean I R o e x /\ encodes enc (Z.of_N x) w.
Proof.
  intros IO IF F H W. assert (N : no_bytes ts).
  { intros b K. destruct (proj1 (class_cread I o) _ _ _ H) as (x & X & B). rewrite (B (ex_intro _ b K)) in X. apply cread_all in X. apply written_cread, cread_all in W. cbn [cread_full] in *. specialize (X _ [] (le_n _)). rewrite (W _ [] (le_n _)) in X. discriminate X. }
  destruct (class_meaning I R o ts c n IO IF F N H) as (e' & W' & A & B & _). rewrite (written_once e e' ts W W'). auto.
Qed.
Print Assumptions class_as_read.

(** The tokens of a pattern without look-around are read as one language and leave one set of options. *)
Theorem pattern_read_once I R enc o ts o1 L o2 M : says I R enc RAlt o ts o1 L -> says I R enc RAlt o ts o2 M -> o1 = o2 /\ L = M.
Proof. apply says_once. Qed.
Print Assumptions pattern_read_once.

(** An accepted text can be read, and whatever is read from it is what its tree matches. *)
Theorem text_as_read I R enc insensitive unicode text t n : icu_ok I -> icu_folds I R -> bytes text ->
  parse I false insensitive unicode text = Ok (t, n) -> has_look t = false ->
  (exists cps ts o' L, transform_utf8_to_unicode text = Ok cps /\ cut_into I cps ts /\ says I R enc RAlt (first_opts insensitive unicode) ts o' L) /\
  forall cps ts o' L, transform_utf8_to_unicode text = Ok cps -> cut_into I cps ts -> says I R enc RAlt (first_opts insensitive unicode) ts o' L ->
    forall w, lang (enc_atom enc) t w <-> L w.
Proof.
  intros IO IF B E HL. destruct (pattern_text I R enc insensitive unicode text t n IO IF B E HL) as (cps & ts & o' & L & T & K & S & EQ). split; [eauto 10|].
  intros cps' ts' o2 M T' K' S'. rewrite T in T'. injection T' as <-. apply text_tokens in K as (K & _), K' as (K' & _). subst ts ts'. destruct (says_once _ _ _ _ _ _ _ _ _ S S') as (_ & <-). auto.
Qed.
Print Assumptions text_as_read.

(** The hits of a pattern in a stream, for whatever is read from its text *)
Section Hits.
Variable sort : nat -> nat -> list (list bset) -> list (list bset).
Variable sort_len : list (list bset) -> list (list bset).
Hypothesis sort_perm : forall a b l, Permutation l (sort a b l).
Hypothesis sort_len_perm : forall l, Permutation l (sort_len l).
Hypothesis sort_len_sorted : forall l, StronglySorted (fun a b => (length a <= length b)%nat) (sort_len l).
Notation stream_calls off cs := (chunk_calls off cs ++ [CClose true]).
Variable ks : list (encoder * pnode).
Variable rs : list (option N).
Variable P : program.
Variable fuel : nat.
Hypothesis C : created sort sort_len ks rs P.
Hypothesis HV : (2 * length (p_words P) <= fuel)%nat.

Theorem hits_as_read I R insensitive unicode text t n t' str off hits vs j e l cps ts o' L : icu_ok I -> icu_folds I R -> bytes text ->
  (off + N.of_nat (length (List.concat str)) < two64)%N -> bytes (List.concat str) ->
  session fuel P (stream_calls off str) = Ok (hits, vs) -> nth_error ks j = Some (e, t') -> nth_error rs j = Some (Some l) ->
  parse I false insensitive unicode text = Ok (t, n) -> parsed text t -> reduce text (Some t) = Ok (Some t') ->
  transform_utf8_to_unicode text = Ok cps -> cut_into I cps ts -> says I R e RAlt (first_opts insensitive unicode) ts o' L ->
  forall h, In h hits -> h_label h = l ->
    (off <= h_start h < h_end h)%N /\ (h_end h <= off + N.of_nat (length (List.concat str)))%N /\ L (slice (List.concat str) off (h_start h) (h_end h)).
Proof.
  intros IO IF B LO BC S EJ EL E PT RD T K SA. apply text_tokens in K as (<- & _).
  destruct (pattern_hits sort sort_len sort_perm sort_len_perm sort_len_sorted ks rs P fuel C HV I R insensitive unicode text t n t' str off hits vs j e l IO IF B LO BC S EJ EL E PT RD) as (cps' & o2 & M & T' & SA' & H).
  rewrite T in T'. injection T' as <-. destruct (says_once _ _ _ _ _ _ _ _ _ SA SA') as (_ & ->). exact H.
Qed.
End Hits.
Print Assumptions hits_as_read.

(** * Examples: `a{2}[^-b]` *)

Definition rd_chars : list Z := chars "a{2}[^-b]".
Definition rd_text : list N := map Z.to_N rd_chars.
Definition rd_toks : list tok := [TP 97; TP 123; TDigit 50; TP 125; TP 91; TP 94; TP 45; TChar 98; TP 93].
Definition rd_class : cexpr := XNeg (XOp OUnion (XChar 45) (XChar 98)).
Definition rd_opts : opts := first_opts false false.
Definition rd_lang : language :=
  followed (repeated 2 (Some 2) (one_of (EBase ASCII) (counts eq rd_opts 97))) (one_of (EBase ASCII) (mean small_icu eq rd_opts rd_class)).
Example rd_written : written Whole rd_class [TP 91; TP 94; TP 45; TChar 98; TP 93].
Proof.
  apply (w_neg true _ [TP 45; TChar 98]). apply (w_op false false true OUnion _ [TP 45] _ [TChar 98]); [apply w_elem, w_hyphen|apply w_char; left; auto|discriminate].
Qed.
Example rd_says : says small_icu eq (EBase ASCII) RAlt rd_opts rd_toks rd_opts rd_lang.
Proof.
  apply (sa_cat _ _ _ true). apply (sa_then _ _ _ false true rd_opts [TP 97; TP 123; TDigit 50; TP 125] rd_opts _ [TP 91; TP 94; TP 45; TChar 98; TP 93]).
  - apply sa_rep. apply (sa_greedy _ _ _ rd_opts [TP 97] rd_opts _ [TP 123; TDigit 50; TP 125] 2 (Some 2)).
    + apply (sa_char _ _ _ rd_opts (TP 97) 97). right; right. split; auto. simpl. lia.
    + apply (ca_exact [50]). discriminate.
  - apply sa_atom, sa_class, rd_written.
  - discriminate.
Qed.
Definition rd_tree : pnode := PCat (PRep true (PAtom (ALit 97)) 2 2) (PAtom (AClass [0; 45; 46; 98; 99; MAXCP]%N bs_empty true)).
Example rd_parsed : parse small_icu false false false rd_text = Ok (rd_tree, 7%nat).
Proof. vm_compute. reflexivity. Qed.
(** It matches `aac`, and neither `aa-` nor `a{2}c`. *)
Example rd_matches : let ok w := lang (enc_atom (EBase ASCII)) rd_tree w in ok [97; 97; 99]%N /\ ~ ok [97; 97; 45]%N /\ ~ ok [97; 123; 50; 125; 99]%N.
Proof.
  assert (B : bytes rd_text) by (apply Forall_forall; intros x H; revert x H; apply Forall_forall; vm_compute; repeat constructor).
  destruct (text_as_read small_icu eq (EBase ASCII) false false rd_text rd_tree 7 small_icu_ok small_folds B rd_parsed eq_refl) as (_ & H).
  assert (K : cut_into small_icu rd_chars rd_toks) by (apply text_tokens; split; [vm_compute; reflexivity|vm_compute; intuition discriminate]).
  assert (T : transform_utf8_to_unicode rd_text = Ok rd_chars) by (vm_compute; reflexivity).
  specialize (H rd_chars rd_toks rd_opts rd_lang T K rd_says).
  assert (ONE : forall Q w, one_of (EBase ASCII) Q w <-> exists x, (x < 128)%N /\ Q x /\ w = [x]).
  { intros Q w. unfold one_of. split.
    - intros (x & L & q & G). inversion G as [c cp v S| | |]; subst. destruct S as (S & ->). exists x. rewrite N2Z.id. split; [lia|auto].
    - intros (x & L & q & ->). exists x. split; [unfold MAXCP; lia|]. split; auto. constructor. split; [lia|]. rewrite N2Z.id. auto. }
  assert (AA : forall w, repeated 2 (Some 2) (one_of (EBase ASCII) (counts eq rd_opts 97)) w <-> w = [97; 97]%N).
  { intros w. unfold repeated. split.
    - intros (ws & F & -> & A & Z). destruct ws as [|x [|y [|z ws]]]; cbn [length] in A, Z; try lia. inversion F as [|? ? X F']; subst. inversion F' as [|? ? Y _]; subst.
      apply ONE in X as (a & _ & X & ->), Y as (b & _ & Y & ->). cbn in X, Y. subst. reflexivity.
    - intros ->. exists [[97]; [97]]%N. split; [|repeat split; simpl; lia]. assert (X : one_of (EBase ASCII) (counts eq rd_opts 97) [97%N]) by (apply ONE; exists 97%N; repeat split; lia). auto. }
  assert (IN : forall w, rd_lang w <-> exists x, (x < 128)%N /\ x <> 45%N /\ x <> 98%N /\ w = [97; 97; x]%N).
  { intros w. unfold rd_lang, followed. split.
    - intros (u & v & -> & U & V). apply AA in U. subst u. apply ONE in V as (x & Lx & M & ->). cbn in M. exists x. repeat split; auto; intros ->; apply M; [exists 45%N|exists 98%N]; unfold MAXCP; repeat split; auto; lia.
    - intros (x & Lx & N1 & N2 & ->). exists [97; 97]%N, [x]. split; auto. split; [apply AA; auto|]. apply ONE. exists x. split; auto. split; auto. cbn. intros (y & _ & [Y|Y] & E); subst; cbn in *; congruence. }
  cbv zeta. rewrite !H, !IN. split; [|split].
  - exists 99%N. repeat split; lia.
  - intros (x & _ & N1 & _ & E). injection E as <-. congruence.
  - intros (x & _ & _ & _ & E). discriminate E.
Qed.
(** The class of the example, found as the parser finds it *)
Example rd_class_read : forall c n, charclass small_icu rd_opts [TP 91; TP 94; TP 45; TChar 98; TP 93] c n -> forall x, in_class (cs_cps c) x <-> (x < MAXCP)%N /\ x <> 45%N /\ x <> 98%N.
Proof.
  intros c n H x. assert (F : Forall tok_ok [TP 91; TP 94; TP 45; TChar 98; TP 93]) by (repeat (constructor; [simpl; lia || exact Logic.I|]); constructor).
  rewrite (proj1 (class_as_read small_icu eq rd_opts _ c n rd_class small_icu_ok small_folds F H rd_written) x). cbn. split.
  - intros (L & M). split; auto. split; intros ->; apply M; [exists 45%N|exists 98%N]; unfold MAXCP; repeat split; auto; lia.
  - intros (L & N1 & N2). split; auto. intros (y & _ & [Y|Y] & E); subst; cbn in *; congruence.
Qed.
Example rd_class_derived : exists c n, charclass small_icu rd_opts [TP 91; TP 94; TP 45; TChar 98; TP 93] c n.
Proof.
  assert (X : exists c n, p_class small_icu rd_opts 12 [TP 91; TP 94; TP 45; TChar 98; TP 93] = Ok (c, n, [])) by (do 2 eexists; vm_compute; reflexivity). destruct X as (c & n & E).
  assert (F : Forall tok_ok [TP 91; TP 94; TP 45; TChar 98; TP 93]) by (repeat (constructor; [simpl; lia || exact Logic.I|]); constructor).
  destruct (p_class_ok small_icu small_icu_ok rd_opts 12) as (PC & _). specialize (PC _ F ltac:(simpl; lia)). rewrite E in PC. destruct PC as (pre & EP & H). cbn [fst snd] in *. rewrite app_nil_r in EP. subst pre. eauto.
Qed.

(** The hits of Thm_Meaning's keyword, for any reading of its text *)
Example rd_hits : (exists cps ts o' L, transform_utf8_to_unicode mn_text = Ok cps /\ cut_into small_icu cps ts /\ says small_icu eq (EBase UTF8) RAlt (first_opts false false) ts o' L) /\
  forall cps ts o' L, transform_utf8_to_unicode mn_text = Ok cps -> cut_into small_icu cps ts -> says small_icu eq (EBase UTF8) RAlt (first_opts false false) ts o' L ->
    L (slice (List.concat mn_data) 5 6 9) /\ L (slice (List.concat mn_data) 5 10 12).
Proof.
  split; [apply (text_as_read small_icu eq (EBase UTF8) false false mn_text mn_tree 8 small_icu_ok small_folds mn_bytes mn_parsed); reflexivity|].
  intros cps ts o' L T K S.
  assert (H : forall h, In h mn_hits -> h_label h = 0%N -> (5 <= h_start h < h_end h)%N /\ (h_end h <= 5 + N.of_nat (length (List.concat mn_data)))%N /\ L (slice (List.concat mn_data) 5 (h_start h) (h_end h))).
  { apply (hits_as_read no_sort sort_by_len no_sort_perm by_len_perm by_len_sorted mn_ks _ mn_P 400 mn_created (proj1 mn_searched) small_icu eq false false mn_text mn_tree 8 mn_tree mn_data 5 mn_hits mn_rets 0 (EBase UTF8) 0 cps ts o' L small_icu_ok small_folds mn_bytes).
    - reflexivity.
    - repeat (constructor; [lia|]); constructor.
    - apply mn_searched.
    - reflexivity.
    - reflexivity.
    - exact mn_parsed.
    - exact mn_ok.
    - exact mn_reduced.
    - exact T.
    - exact K.
    - exact S. }
  split.
  - apply (H {| h_start := 6; h_end := 9; h_label := 0 |}); [left; auto|auto].
  - apply (H {| h_start := 10; h_end := 12; h_label := 0 |}); [right; left; auto|auto].
Qed.
