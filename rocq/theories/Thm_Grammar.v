(** C55: the parser accepts the language of the grammar, all of it, and the grammar gives every
    pattern one tree. *)
From Verif Require Import Base RangeSetModel ByteSetModel UtfModel EscModel EncModel EncProofs PatModel ParseModel ParseSets ParseGrammar ParseRun ParseText ParseFull Thm_Parse.
Open Scope Z_scope.

(** The tokens of a text have at most one tree, whichever rules are used to derive it: the two flags
    of the rules are all it takes to resolve the conflicts of the grammar. *)
Theorem grammar_unambiguous I o ts o1 t n o2 u m : alt I o ts o1 t n -> alt I o ts o2 u m -> o1 = o2 /\ t = u /\ n = m.
Proof.
  intros H G. pose proof (alt_run I o ts o1 t n _ H (le_n _)) as E. rewrite (alt_run I o ts o2 u m _ G (le_n _)) in E. injection E as -> -> ->. auto.
Qed.
Print Assumptions grammar_unambiguous.

(** The same for classes. *)
Theorem class_unambiguous I o ts c n d m : charclass I o ts c n -> charclass I o ts d m -> c = d /\ n = m.
Proof.
  intros H G. pose proof (proj1 (class_all I o) ts c n H _ [] (le_n _)) as E. rewrite (proj1 (class_all I o) ts d m G _ [] (le_n _)) in E. injection E as -> ->. auto.
Qed.
Print Assumptions class_unambiguous.

(** A text is accepted, with a tree and a number of nodes, exactly if the grammar derives that tree
    from its tokens. *)
Theorem parse_exactly I fixed insensitive unicode text cps t n : icu_ok I -> bytes text -> transform_utf8_to_unicode text = Ok cps ->
  (parse I fixed insensitive unicode text = Ok (t, n) <-> exists o' m, alt I (first_opts insensitive unicode) (lex I (length cps) fixed cps) o' t m /\ n = S m).
Proof.
  intros IO B T. split.
  - intros E. destruct (parse_grammar I fixed insensitive unicode text t n IO B E) as (cps' & o' & m & T' & A & N). rewrite T in T'. injection T' as <-. eauto.
  - intros (o' & m & A & ->). unfold parse. rewrite T. cbn [bind]. change {| cased := negb insensitive; ascii := negb unicode |} with (first_opts insensitive unicode). rewrite (alt_run I _ _ _ _ _ _ A) by lia. reflexivity.
Qed.
Print Assumptions parse_exactly.

(** A text is refused exactly if it is no UTF-8 or the grammar derives no tree; rows of ten digits,
    which may be undefined, are left out. *)
Theorem parse_refuses I fixed insensitive unicode text : icu_ok I -> bytes text -> digit_runs 9 text -> transform_utf8_to_unicode text <> UB ->
  (parse I fixed insensitive unicode text = Throw <->
   forall cps o' t m, transform_utf8_to_unicode text = Ok cps -> ~ alt I (first_opts insensitive unicode) (lex I (length cps) fixed cps) o' t m).
Proof.
  intros IO B D NU. split.
  - intros E cps o' t m T A. assert (X : parse I fixed insensitive unicode text = Ok (t, S m)) by (apply (parse_exactly I fixed insensitive unicode text cps); eauto). congruence.
  - intros H. pose proof (parse_spec I fixed insensitive unicode text IO B) as S. destruct (parse I fixed insensitive unicode text) as [[t n]| | |]; auto.
    + destruct S as (cps & ws & o' & m & _ & _ & T & A & _). destruct (H cps o' t m T A).
    + destruct S as [S|S]; [congruence|contradiction].
    + contradiction.
Qed.
Print Assumptions parse_refuses.

(** * Examples: `b{2}|[^-x]` has the tree of a repetition and a class, and no other; `b{2` has none. *)

Definition gr_text : list N := [98; 123; 50; 125; 124; 91; 94; 45; 120; 93]%N.
Definition gr_tree : pnode := PAlt (PRep true (PAtom (ALit 98)) 2 2) (PAtom (AClass [0; 45; 46; 120; 121; MAXCP]%N bs_empty true)).
Example gr_parsed : parse small_icu false false false gr_text = Ok (gr_tree, 7%nat).
Proof. vm_compute. reflexivity. Qed.
Example gr_derived : exists cps o', transform_utf8_to_unicode gr_text = Ok cps /\ alt small_icu (first_opts false false) (lex small_icu (length cps) false cps) o' gr_tree 6 /\
  forall o2 u m, alt small_icu (first_opts false false) (lex small_icu (length cps) false cps) o2 u m -> u = gr_tree /\ m = 6%nat.
Proof.
  assert (B : bytes gr_text) by (repeat (constructor; [lia|]); constructor).
  assert (T : transform_utf8_to_unicode gr_text = Ok [98; 123; 50; 125; 124; 91; 94; 45; 120; 93]) by (vm_compute; reflexivity).
  destruct (proj1 (parse_exactly small_icu false false false gr_text _ gr_tree 7 small_icu_ok B T) gr_parsed) as (o' & m & A & E). injection E as <-.
  eexists. exists o'. split; [exact T|]. split; [exact A|]. intros o2 u k G. destruct (grammar_unambiguous _ _ _ _ _ _ _ _ _ A G) as (_ & -> & ->). auto.
Qed.
Example gr_class : exists c, charclass small_icu (first_opts false false) [TP 91; TP 94; TP 45; TChar 120; TP 93] c 2 /\
  forall d m, charclass small_icu (first_opts false false) [TP 91; TP 94; TP 45; TChar 120; TP 93] d m -> cs_cps d = [0; 45; 46; 120; 121; MAXCP]%N /\ m = 2%nat.
Proof.
  assert (X : exists c, charclass small_icu (first_opts false false) [TP 91; TP 94; TP 45; TChar 120; TP 93] c 2 /\ cs_cps c = [0; 45; 46; 120; 121; MAXCP]%N).
  { eexists. split; [eapply (cl_neg small_icu (first_opts false false) true [TP 45; TChar 120]); [apply (ce_op small_icu (first_opts false false) false false true OUnion [TP 45] [TChar 120] {| cs_cps := [45; 46]%N; cs_bytes := bs_empty; cs_add := true |} {| cs_cps := [120; 121]%N; cs_bytes := bs_empty; cs_add := true |} {| cs_cps := [45; 46; 120; 121]%N; cs_bytes := bs_empty; cs_add := true |} 1 1)|]|].
    - apply ce_elem, el_hyphen. vm_compute. reflexivity.
    - eapply el_char; [reflexivity|vm_compute; reflexivity].
    - discriminate.
    - vm_compute. reflexivity.
    - vm_compute. reflexivity.
    - reflexivity. }
  destruct X as (c & H & E). exists c. split; auto. intros d m G. destruct (class_unambiguous _ _ _ _ _ _ _ H G) as (<- & <-). auto.
Qed.

Definition gr_bad : list N := [98; 123; 50]%N.
Example gr_refused : forall cps o' t m, transform_utf8_to_unicode gr_bad = Ok cps -> ~ alt small_icu (first_opts false false) (lex small_icu (length cps) false cps) o' t m.
Proof.
  apply (parse_refuses small_icu false false false gr_bad small_icu_ok).
  - repeat (constructor; [lia|]); constructor.
  - intros a ds b E _. apply (f_equal (@length N)) in E. rewrite !app_length in E. cbn [gr_bad length] in E. lia.
  - vm_compute. discriminate.
  - vm_compute. reflexivity.
Qed.
