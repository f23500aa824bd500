(** C57: the text a parse tree is written as is read as that tree again. *)
From Coq Require Import Ascii String.
From Verif Require Import Base RangeSetModel RangeSetProofs ByteSetModel UtfModel EscModel PatModel PatSpec EncModel EncProofs EncUtf BuildEnc ParseModel ParseSets ParseGrammar ParseRun Thm_Parse Thm_Fixed Thm_Class Thm_Meaning Thm_Text UnparseModel UnparseTree UnparseClass.
Import PatSpec.
Import ListNotations.
Open Scope list_scope.
Open Scope Z_scope.
Local Ltac computed := repeat match goal with |- _ /\ _ => split end; vm_compute; reflexivity.

(** A tree of characters that need no escape, dots, classes whose ends need none, concatenations,
    alternatives and repetitions is written as a text that is read as the same tree, up to how
    concatenations and alternatives associate.  That changes neither what is matched nor which match
    is preferred, and trees that associate to the left come back as they are. *)
Theorem unparse_read_back I unicode t : icu_ok I -> plain plain_class t ->
  exists s u n, unparse t = Ok s /\ parse I false false unicode (as_bytes s) = Ok (u, n) /\
    (forall A w, lang A u w <-> lang A t w) /\ (forall am w, ways am u w = ways am t w) /\ (left_nested t -> u = t).
Proof.
  intros IO P. destruct (unparse_read I plain_class t unicode IO (plain_class_reads I) P) as (s & n & E & R). exists s, (to_left t), n. split; auto. split; auto.
  split; [intros; apply to_left_lang|]. split; [intros; apply to_left_ways|apply to_left_same].
Qed.
Print Assumptions unparse_read_back.

(** Classes: the code points below 256 are looked at, and whether the others belong is told by the
    negation alone. *)
Theorem unparse_class I unicode v : icu_ok I -> plain_class v ->
  exists s n, unparse (PAtom (AClass v bs_empty true)) = Ok s /\ parse I false false unicode (as_bytes s) = Ok (PAtom (AClass v bs_empty true), n).
Proof.
  intros IO P. destruct (unparse_read_back I unicode (PAtom (AClass v bs_empty true)) IO) as (s & u & n & E & R & _ & _ & L); [constructor; auto|]. rewrite (L Logic.I) in R. eauto.
Qed.
Print Assumptions unparse_class.

(** * Where it goes wrong *)

(** A sign is not escaped: the text is refused. *)
Theorem unparse_sign_refuted I unicode : exists t,
  parse I false false unicode (as_bytes (str "\*")) = Ok (t, 2%nat) /\ unparse t = Ok (str "*") /\ parse I false false unicode (as_bytes (str "*")) = Throw.
Proof. destruct unicode; exists (PAtom (ALit 42)); computed. Qed.
Print Assumptions unparse_sign_refuted.

(** A character beyond Latin-1 has more than two hexadecimal digits, but only two are read. *)
Theorem unparse_wide_refuted I unicode : exists t,
  parse I false false unicode (as_bytes (str "\x{3BB}")) = Ok (t, 2%nat) /\ unparse t = Ok (str "\x3BB") /\
  parse I false false unicode (as_bytes (str "\x3BB")) = Ok (PCat (PAtom (ALit 59)) (PAtom (ALit 66)), 4%nat).
Proof. destruct unicode; exists (PAtom (ALit 955)); computed. Qed.
Print Assumptions unparse_wide_refuted.

(** A byte is written as a character. *)
Theorem unparse_byte_refuted I unicode : exists t,
  parse I false false unicode (as_bytes (str "\zFF")) = Ok (t, 2%nat) /\ t = PAtom (AByte 255) /\ unparse t = Ok (str "\xFF") /\
  parse I false false unicode (as_bytes (str "\xFF")) = Ok (PAtom (ALit 255), 2%nat).
Proof. destruct unicode; exists (PAtom (AByte 255)); computed. Qed.
Print Assumptions unparse_byte_refuted.

(** Two hyphens are one token outside a class too, so that a repetition covers both. *)
Theorem unparse_hyphens_refuted I unicode : exists t,
  parse I false false unicode (as_bytes (str "\-\-*")) = Ok (t, 5%nat) /\ unparse t = Ok (str "--*") /\
  t = PCat (PAtom (ALit 45)) (PRep true (PAtom (ALit 45)) 0 UNBOUNDED) /\
  parse I false false unicode (as_bytes (str "--*")) = Ok (PRep true (PCat (PAtom (ALit 45)) (PAtom (ALit 45))) 0 UNBOUNDED, 5%nat).
Proof. destruct unicode; exists (PCat (PAtom (ALit 45)) (PRep true (PAtom (ALit 45)) 0 UNBOUNDED)); computed. Qed.
Print Assumptions unparse_hyphens_refuted.

(** The class of the backslash and the closing bracket: the bracket counts as first though it is not,
    is not escaped and ends the class. *)
Theorem unparse_bracket_refuted I unicode : exists t,
  parse I false false unicode (as_bytes (str "[\\\]]")) = Ok (t, 3%nat) /\ t = PAtom (AClass [92; 94]%N bs_empty true) /\ unparse t = Ok (str "[\\]]") /\
  parse I false false unicode (as_bytes (str "[\\]]")) = Ok (PCat (PAtom (AClass [92; 93]%N bs_empty true)) (PAtom (ALit 93)), 4%nat).
Proof. destruct unicode; exists (PAtom (AClass [92; 94]%N bs_empty true)); computed. Qed.
Print Assumptions unparse_bracket_refuted.

(** After a negation the closing bracket is not escaped, and an opening bracket never is: both texts
    are refused. *)
Theorem unparse_refused_class_refuted I unicode : exists t u,
  parse I false false unicode (as_bytes (str "[^\]]")) = Ok (t, 2%nat) /\ unparse t = Ok (str "[^]]") /\ parse I false false unicode (as_bytes (str "[^]]")) = Throw /\
  parse I false false unicode (as_bytes (str "[\[]")) = Ok (u, 2%nat) /\ unparse u = Ok (str "[[]") /\ parse I false false unicode (as_bytes (str "[[]")) = Throw.
Proof. destruct unicode; exists (PAtom (AClass [0; 93; 94; MAXCP]%N bs_empty true)), (PAtom (AClass [91; 92]%N bs_empty true)); computed. Qed.
Print Assumptions unparse_refused_class_refuted.

(** A class without code points below 256 is written as the class of all others. *)
Theorem unparse_wide_class_refuted I unicode : exists t,
  parse I false false unicode (as_bytes (str "[\x{3BB}]")) = Ok (t, 2%nat) /\ t = PAtom (AClass [955; 956]%N bs_empty true) /\ unparse t = Ok (str "[^\x00-\xFF]") /\
  parse I false false unicode (as_bytes (str "[^\x00-\xFF]")) = Ok (PAtom (AClass [256; MAXCP]%N bs_empty true), 2%nat).
Proof. destruct unicode; exists (PAtom (AClass [955; 956]%N bs_empty true)); computed. Qed.
Print Assumptions unparse_wide_class_refuted.

(** * Examples: the trees of `a(b|\t){2,}?[%,-9a-z]` and of `[^a-c]` with alternatives that associate to the right *)

Definition up_class : rset := [37; 38; 44; 58; 97; 123]%N.
Definition up_negated : rset := [0; 97; 100; MAXCP]%N.
Definition up_tree : pnode :=
  PAlt (PCat (PCat (PAtom (ALit 97)) (PRep false (PAlt (PAtom (ALit 98)) (PAtom (ALit 9))) 2 UNBOUNDED)) (PAtom (AClass up_class bs_empty true)))
    (PAlt (PAtom (AClass up_negated bs_empty true)) (PCat (PAtom ADot) (PCat (PAtom (ALit 93)) (PAtom (ALit 255))))).
Definition up_text : list Z := str "a(b|\t){2,}?[%,-9a-z]|[^abc]|.]\xFF".
Example up_class_plain : plain_class up_class.
Proof.
  assert (C : canon MAXCP up_class). { change up_class with (inserts [] [(37, 38); (44, 58); (97, 123)]%N). apply inserts_canon; [apply canon_empty|]. repeat (constructor; [cbn; unfold MAXCP; lia|]). constructor. }
  split; auto. split.
  - intros x Hx. replace (negated (low_bytes up_class)) with false by (vm_compute; reflexivity). split; [|discriminate]. intros (a & b & H & L). exfalso. vm_compute in H. unfold MAXCP in Hx.
    repeat (destruct H as [H|H]; [injection H as <- <-; lia|]). contradiction.
  - left. intros z Hz. assert (E : z = 91 \/ z = 92 \/ z = 93 \/ z = 94) by lia. destruct E as [->|[->|[->| ->]]]; vm_compute; reflexivity.
Qed.
Example up_negated_plain : plain_class up_negated.
Proof.
  assert (C : canon MAXCP up_negated). { change up_negated with (inserts [] [(0, 97); (100, MAXCP)]%N). apply inserts_canon; [apply canon_empty|]. repeat (constructor; [cbn; unfold MAXCP; lia|]). constructor. }
  split; auto. split.
  - intros x Hx. replace (negated (low_bytes up_negated)) with true by (vm_compute; reflexivity). split; auto. intros _. exists 100%N, MAXCP. split; [right; left; reflexivity|]. lia.
  - left. intros z Hz. assert (E : z = 91 \/ z = 92 \/ z = 93 \/ z = 94) by lia. destruct E as [->|[->|[->| ->]]]; vm_compute; reflexivity.
Qed.
Example up_plain : plain plain_class up_tree.
Proof.
  assert (L : forall c, 0 <= c <= 255 -> existsb (Z.eqb c) (chars "|()?+*.[^${&~-") = false -> plain plain_class (PAtom (ALit c))).
  { intros c R E. constructor. split; auto. intros H. rewrite (proj2 (existsb_exists _ _)) in E; [discriminate|]. exists c. split; auto. apply Z.eqb_refl. }
  unfold up_tree. repeat first [apply pl_alt | apply pl_cat | apply pl_rep | apply pl_dot | apply pl_class | (apply L; [lia|vm_compute; reflexivity])].
  - split; [unfold UNBOUNDED; lia|]. split; [unfold INT_MAX; lia|auto].
  - apply up_class_plain.
  - apply up_negated_plain.
Qed.
Example up_written : unparse up_tree = Ok up_text.
Proof. vm_compute. reflexivity. Qed.
Example up_read : parse small_icu false false false (as_bytes up_text) = Ok (to_left up_tree, 22%nat) /\ to_left up_tree <> up_tree.
Proof. split; [vm_compute; reflexivity|discriminate]. Qed.
Example up_back : exists u n, parse small_icu false false false (as_bytes up_text) = Ok (u, n) /\ forall am w, ways am u w = ways am up_tree w.
Proof. destruct (unparse_read_back small_icu false up_tree small_icu_ok up_plain) as (s & u & n & E & R & _ & W & _). rewrite up_written in E. injection E as <-. eauto. Qed.
