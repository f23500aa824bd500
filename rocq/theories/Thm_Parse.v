(** C46, C47, C48: parsing a pattern.  Every run of the parser ends; it derives what the grammar
    derives; it is undefined only for texts cut short within a UTF-8 sequence and for numbers of ten
    or more digits; the nodes it adds fit into the memory reserved for them; and its trees are as the
    later stages need them. *)
From Verif Require Import Base RangeSetModel RangeSetProofs ByteSetModel ByteSetProofs UtfModel UtfProofs Thm_Utf EscModel PatModel PatSpec EncModel EncProofs Thm_Enc RewriteProofs BuildSpec BuildTree BuildEnc
  Thm_Rewrite Thm_Api ParseModel ParseSets ParseGrammar ParseRun ParseText ParseFixed.
Open Scope Z_scope.

(** Text in UTF-8 *)
Definition utf8_text (cps : list Z) (text : list N) : Prop := exists ws, Forall2 rfc3629 cps ws /\ text = List.concat ws.

Definition digit_byte (b : N) : Prop := (48 <= b <= 57)%N.

(** No run of more than [d] digits *)
Definition digit_runs (d : nat) (text : list N) : Prop := forall a ds b, text = a ++ ds ++ b -> Forall digit_byte ds -> (length ds <= d)%nat.

(** The options at the beginning, re_grammar.ypp:1501-1527 *)
Definition first_opts (insensitive unicode : bool) : opts := {| cased := negb insensitive; ascii := negb unicode |}.

(** * Lemmas *)

Lemma rfc_bytes c w : rfc3629 c w -> bytes w.
Proof. destruct 1 as [x H|x y H1 H2 H3|x y z H1 H2 H3 H4 H5|x y z v H1 H2 H3 H4 H5 H6]; repeat constructor; unfold scalar in *; lia. Qed.
Lemma utf8_bytes cps text : utf8_text cps text -> bytes text.
Proof. intros (ws & F & ->). induction F as [|c w cps ws H _ IH]; [constructor|]. simpl. apply Forall_app. split; auto. eapply rfc_bytes; eauto. Qed.
Lemma utf8_transform cps text : utf8_text cps text -> transform_utf8_to_unicode text = Ok cps.
Proof. intros H. pose proof (utf8_bytes _ _ H) as B. destruct H as (ws & F & ->). apply transform_valid; auto. Qed.

Lemma lex_digits I f literal s ds x y : icu_ok I -> Forall (fun c => c < 1114112) s -> lex I f literal s = x ++ ds ++ y -> Forall is_digit ds ->
  exists a cs b, s = a ++ cs ++ b /\ Forall (fun c => 48 <= c <= 57) cs /\ length cs = length ds.
Proof.
  intros IO B E D. pose proof (lex_ok I IO literal f s B) as K. rewrite E in K. apply Forall_app in K as [_ K]. apply Forall_app in K as [K _].
  destruct (lex_parts I IO literal f s x ds y E) as (a & ys & b & -> & F & _). { intros H. rewrite Forall_forall in D. apply (D TBad H). }
  exists a, (List.concat ys), b. split; auto. clear -D K F. induction F as [|k ch ds ys R _ IH]; [simpl; auto|]. inversion D as [|? ? D1 D2]; subst. inversion K as [|? ? K1 K2]; subst. destruct (IH D2 K2) as (IH1 & IH2).
  destruct k as [c|c|c|c| | | | | | | | | |]; try contradiction. rewrite (rt_digit _ _ R c eq_refl). simpl in *. split; auto.
Qed.

Lemma text_digits cps ws a cs b : Forall2 reads_cp cps ws -> cps = a ++ cs ++ b -> Forall (fun c => 48 <= c <= 57) cs -> exists x y, List.concat ws = x ++ map Z.to_N cs ++ y /\ Forall digit_byte (map Z.to_N cs).
Proof.
  intros F E D. destruct (cps_parts cps ws a cs b F E) as (x & y & EW & _). { eapply Forall_impl; [|exact D]. simpl. lia. }
  exists x, y. split; auto. apply Forall_map. eapply Forall_impl; [|exact D]. unfold digit_byte. simpl. lia.
Qed.

Lemma short_text I literal cps ws d : icu_ok I -> Forall2 reads_cp cps ws -> digit_runs d (List.concat ws) -> short d (lex I (length cps) literal cps).
Proof.
  intros IO F H a ds b E D. destruct (lex_digits I _ literal cps ds a b IO (reads_bound _ _ F) E D) as (x & cs & y & EC & DC & L).
  destruct (text_digits cps ws x cs y F EC DC) as (u & v & EW & DW). specialize (H u _ v EW DW). rewrite map_length in H. lia.
Qed.

Lemma brace_text I literal cps ws : icu_ok I -> Forall2 reads_cp cps ws -> has_brace (lex I (length cps) literal cps) -> containsPossibleCountedRepetition (List.concat ws) = true.
Proof.
  intros IO F (a & b & E & NA & LB). destruct (lex_parts I IO literal (length cps) cps a [TP 123] b E) as (x & ys & y & EC & FY & NX & LY). { intros [H|[]]. discriminate. }
  destruct ys as [|ch ys]; [inversion FY|]. assert (R : reads_tok (TP 123) ch /\ ys = []) by (inversion FY as [|? ? ? ? R1 R2]; inversion R2; auto). destruct R as (R & ->). rewrite (rt_punct _ _ R 123 eq_refl) in *. simpl List.concat in EC.
  assert (P : exists u v, List.concat ws = u ++ map Z.to_N [123] ++ v /\ (x <> [] -> u <> []) /\ (length y <= length v)%nat). { apply (cps_parts cps ws x [123] y F); [exact EC|repeat constructor; lia]. }
  destruct P as (u & v & EW & NU & LV). change (map Z.to_N [123]) with [123%N] in EW. rewrite EW. clear EW. specialize (NU (NX NA)). unfold containsPossibleCountedRepetition.
  assert (LEN : (3 <= length (u ++ [123%N] ++ v))%nat) by (rewrite !app_length; simpl; lia). destruct (Nat.ltb_spec (length (u ++ [123%N] ++ v)) 3); [lia|].
  apply existsb_exists. exists 123%N. split; [|reflexivity]. destruct u as [|u0 u]; [exfalso; apply NU; auto|]. rewrite app_assoc, firstn_app. rewrite firstn_all2 by (rewrite !app_length; simpl; lia).
  simpl. apply in_app_iff. left. apply in_app_iff. right. simpl. auto.
Qed.

Lemma parse_spec I fixed insensitive unicode text : icu_ok I -> bytes text ->
  match parse I fixed insensitive unicode text with
  | Ok (t, n) => exists cps ws o' m, text = List.concat ws /\ Forall2 reads_cp cps ws /\ transform_utf8_to_unicode text = Ok cps /\
      alt I (first_opts insensitive unicode) (lex I (length cps) fixed cps) o' t m /\ n = S m
  | UB => transform_utf8_to_unicode text = UB \/ ~ digit_runs 9 text
  | Fuel => False
  | Throw => True
  end.
Proof.
  intros IO B. unfold parse. pose proof (transform_spec (S (length text)) text B ltac:(lia)) as T. unfold transform_utf8_to_unicode in *.
  destruct (transform (S (length text)) text) as [cps| | |]; cbn [bind]; auto. destruct T as (ws & E & F). pose proof (reads_bound _ _ F) as RB.
  pose proof (lex_ok I IO fixed (length cps) cps RB) as K. fold (first_opts insensitive unicode).
  pose proof (proj1 (run_ok I IO (6 * length (lex I (length cps) fixed cps) + 6)) (first_opts insensitive unicode) _ K ltac:(lia)) as R.
  destruct (p_alt _ _ _ _) as [[[[o' t] m] r]| | |]; simpl in R; cbn [bind]; auto.
  - destruct R as (pre & E2 & H). cbn [fst snd] in *. destruct r; auto. rewrite app_nil_r in E2. exists cps, ws, o', m. rewrite E2. auto.
  - right. intros S. destruct R as (a & ds & b & E2 & D & L). subst text. pose proof (short_text I fixed cps ws 9 IO F S a ds b E2 D). lia.
Qed.

(** * C46: what parsing ends in *)

(** What comes out of the parser is what the grammar derives from the tokens of the text. *)
Theorem parse_grammar I fixed insensitive unicode text t n : icu_ok I -> bytes text -> parse I fixed insensitive unicode text = Ok (t, n) ->
  exists cps o' m, transform_utf8_to_unicode text = Ok cps /\ alt I (first_opts insensitive unicode) (lex I (length cps) fixed cps) o' t m /\ n = S m.
Proof. intros IO B E. pose proof (parse_spec I fixed insensitive unicode text IO B) as S. rewrite E in S. destruct S as (cps & ws & o' & m & _ & _ & T & A & N). eauto 10. Qed.
Print Assumptions parse_grammar.

(** Parsing always ends.  It is undefined only if the text ends within a UTF-8 sequence, so that its
    last byte is not ASCII and the text is not UTF-8, or if it has a row of ten digits. *)
Theorem parse_safe I fixed insensitive unicode text : icu_ok I -> bytes text ->
  parse I fixed insensitive unicode text <> Fuel /\
  (parse I fixed insensitive unicode text = UB -> ((exists a x, text = a ++ [x] /\ (128 <= x)%N) /\ forall cps, ~ utf8_text cps text) \/ ~ digit_runs 9 text).
Proof.
  intros IO B. pose proof (parse_spec I fixed insensitive unicode text IO B) as SP. split; [intros E; rewrite E in SP; auto|]. intros E. rewrite E in SP. destruct SP as [SP|SP]; auto. left. split.
  - pose proof (transform_spec (S (length text)) text B ltac:(lia)) as T. unfold transform_utf8_to_unicode in SP. rewrite SP in T. auto.
  - intros cps U. apply utf8_transform in U. congruence.
Qed.
Print Assumptions parse_safe.

(** * C47: memory *)

(** The number of nodes, the root included *)
Theorem parse_nodes I fixed insensitive unicode text t n : icu_ok I -> bytes text -> parse I fixed insensitive unicode text = Ok (t, n) ->
  (N.of_nat n <= 2 * N.of_nat (length text) + extra_nodes 0 text + 2 * boundaries 0 text)%N.
Proof.
  intros IO B E. pose proof (parse_spec I fixed insensitive unicode text IO B) as S. rewrite E in S. destruct S as (cps & ws & o' & m & -> & F & _ & A & ->).
  destruct (proj1 (tree_invs I IO) _ _ _ _ _ A) as (W & _). pose proof (lex_weights I IO fixed (length cps) cps). pose proof (measure_bytes cps ws 0 0 F ltac:(lia)). lia.
Qed.
Print Assumptions parse_nodes.

(** The nodes stay within what is reserved, so that adding one never moves the others, unless the
    computation of the reserve wraps. *)
Theorem parse_nodes_reserved I fixed insensitive unicode text t n : icu_ok I -> bytes text -> (2 * (2 * N.of_nat (length text) + extra_nodes 0 text) < two32)%N ->
  parse I fixed insensitive unicode text = Ok (t, n) -> (N.of_nat n <= reserved text)%N.
Proof.
  intros IO B W E. apply parse_nodes in E; auto. pose proof (boundaries_extra text 0). unfold reserved, nodesUpperBound. rewrite (N.mod_small (2 * _ + _)) by lia. rewrite N.mod_small; lia.
Qed.
Print Assumptions parse_nodes_reserved.

(** nodesUpperBound alone is an upper bound for patterns without \b and \B. *)
Theorem parse_nodes_bound I fixed insensitive unicode text t n : icu_ok I -> bytes text -> (2 * N.of_nat (length text) + extra_nodes 0 text < two32)%N ->
  (forall a b c, text = a ++ 92%N :: c :: b -> c <> 66%N /\ c <> 98%N) ->
  parse I fixed insensitive unicode text = Ok (t, n) -> (N.of_nat n <= nodesUpperBound text)%N.
Proof.
  intros IO B W NB E. apply parse_nodes in E; auto. unfold nodesUpperBound. rewrite N.mod_small by lia.
  assert (Z : forall l p, (p = 92%N -> forall c r, l = c :: r -> c <> 66%N /\ c <> 98%N) -> (forall a b c, l = a ++ 92%N :: c :: b -> c <> 66%N /\ c <> 98%N) -> boundaries p l = 0%N).
  { clear. induction l as [|c l IH]; intros p P H; auto. cbn [boundaries]. rewrite IH.
    - destruct (N.eqb_spec p 92) as [Ep|]; [|rewrite andb_false_r; auto]. destruct (P Ep c l eq_refl). destruct (N.eqb_spec c 66); [congruence|]. destruct (N.eqb_spec c 98); [congruence|]. auto.
    - intros -> d r ->. apply (H [] r d). auto.
    - intros a b d ->. apply (H (c :: a) b d). auto. }
  rewrite (Z text 0%N) in E; [lia|discriminate|auto].
Qed.
Print Assumptions parse_nodes_bound.

(** * C48: trees *)

Theorem parse_wellformed I fixed insensitive unicode text t n : icu_ok I -> bytes text -> parse I fixed insensitive unicode text = Ok (t, n) ->
  bounds_ok t /\ (forall a, In a (atoms t) -> atom_ok a) /\ (containsPossibleCountedRepetition text = false -> no_zero t).
Proof.
  intros IO B E. pose proof (parse_spec I fixed insensitive unicode text IO B) as S. rewrite E in S. destruct S as (cps & ws & o' & m & -> & F & _ & A & ->).
  destruct (proj1 (tree_invs I IO) _ _ _ _ _ A) as (_ & _ & K & Z). pose proof (lex_ok I IO fixed (length cps) cps (reads_bound _ _ F)) as L. destruct (K L) as (K1 & K2). split; auto. split; auto.
  intros C. destruct (Z L) as [?|H]; auto. rewrite (brace_text I fixed cps ws IO F H) in C. discriminate.
Qed.
Print Assumptions parse_wellformed.

(** If no number has more than [d] digits and the text is not too long for that, the tree meets the
    conditions of the theorems about patterns (Thm_Api.v). *)
Theorem parse_parsed I fixed insensitive unicode text t n d : icu_ok I -> bytes text -> digit_runs d text ->
  (10 ^ N.of_nat d * (2 * N.of_nat (length text) + extra_nodes 0 text + 2 * boundaries 0 text) < UNBOUNDED)%N ->
  parse I fixed insensitive unicode text = Ok (t, n) -> parsed text t.
Proof.
  intros IO B D W E. destruct (parse_wellformed _ _ _ _ _ _ _ IO B E) as (W1 & W2 & W3). pose proof (parse_nodes _ _ _ _ _ _ _ IO B E) as PN.
  pose proof (parse_spec I fixed insensitive unicode text IO B) as S. rewrite E in S. destruct S as (cps & ws & o' & m & -> & F & _ & A & ->).
  split; auto. pose proof (proj1 (sizes I IO d) _ _ _ _ _ A (lex_ok I IO fixed (length cps) cps (reads_bound _ _ F)) (short_text I fixed cps ws d IO F D)) as T. pose proof (B_pos d). nia.
Qed.
Print Assumptions parse_parsed.

(** * Refuted *)

(** C46.  A text that ends within a UTF-8 sequence is read past its end. *)
Theorem parse_truncated_refuted I fixed insensitive unicode : parse I fixed insensitive unicode [97; 195]%N = UB.
Proof. reflexivity. Qed.
Print Assumptions parse_truncated_refuted.

(** C46.  `a{2147483648}`: the number does not fit into an int. *)
Definition big_number : list N := [97; 123; 50; 49; 52; 55; 52; 56; 51; 54; 52; 56; 125]%N.
Theorem parse_number_refuted I unicode : parse I false false unicode big_number = UB /\ utf8_text (map Z.of_N big_number) big_number.
Proof.
  split; [vm_compute; reflexivity|]. exists (map (fun b => [b]) big_number). split; [|reflexivity]. repeat (constructor; [apply U8_1; reflexivity|]). constructor.
Qed.
Print Assumptions parse_number_refuted.

(** C47.  `\b`: twelve nodes, and the upper bound is ten (parsetree.cpp:46-66). *)
Theorem nodes_bound_refuted I insensitive unicode : exists t, parse I false insensitive unicode [92; 98]%N = Ok (t, 12%nat) /\ nodesUpperBound [92; 98]%N = 10%N /\ reserved [92; 98]%N = 20%N.
Proof. eexists. split; [vm_compute; reflexivity|]. split; reflexivity. Qed.
Print Assumptions nodes_bound_refuted.

(** C46.  The last character of a name is dropped if it is not a byte: `\N{Aλ}` is `\N{A}`. *)
Theorem name_suffix_refuted I insensitive unicode : parse I false insensitive unicode [92; 78; 123; 65; 206; 187; 125]%N = parse I false insensitive unicode [92; 78; 123; 65; 125]%N.
Proof.
  unfold parse. change (transform_utf8_to_unicode [92; 78; 123; 65; 206; 187; 125]%N) with (@Ok (list Z) [92; 78; 123; 65; 955; 125]). change (transform_utf8_to_unicode [92; 78; 123; 65; 125]%N) with (@Ok (list Z) [92; 78; 123; 65; 125]). cbn [bind].
  assert (L : lex I (length [92; 78; 123; 65; 955; 125]) false [92; 78; 123; 65; 955; 125] = lex I (length [92; 78; 123; 65; 125]) false [92; 78; 123; 65; 125]); [|rewrite L; auto].
  assert (Y1 : yylex I false 92 [78; 123; 65; 955; 125] = singleton TChar (ic_name I [65], [])) by reflexivity. assert (Y2 : yylex I false 92 [78; 123; 65; 125] = singleton TChar (ic_name I [65], [])) by reflexivity.
  assert (X : forall f c r, lex I (S f) false (c :: r) = match yylex I false c r with (TBad, _) => [TBad] | (k, r) => k :: lex I f false r end) by reflexivity.
  change (length [92; 78; 123; 65; 955; 125]) with 6%nat. change (length [92; 78; 123; 65; 125]) with 5%nat. rewrite !X, Y1, Y2. unfold singleton. destruct (_ <? 0); reflexivity.
Qed.
Print Assumptions name_suffix_refuted.

(** * Cases *)

(** An ICU that knows one name and one property and closes nothing *)
Definition small_icu : icu := {|
  ic_name := fun l => if list_eq_dec Z.eq_dec l [65] then 955 else -1;
  ic_prop := fun l b => if list_eq_dec Z.eq_dec l [92; 112; 123; 76; 125] then Ok [65; 91]%N else Throw;
  ic_close := fun v => (match rs_count v with Ok n => n | _ => 0%N end, v) |}.
Lemma small_icu_ok : icu_ok small_icu.
Proof.
  split.
  - intros l. cbn. destruct (list_eq_dec _ _ _); reflexivity.
  - intros l b. cbn. destruct (list_eq_dec _ _ _); [|exact Logic.I]. apply upper_canon.
  - intros v H. exact H.
Qed.

(** `(?i)a[b-d&&[^c]]{2,3}?|\N{A}+\p{L}` *)
Definition pe_text : list N := [40; 63; 105; 41; 97; 91; 98; 45; 100; 38; 38; 91; 94; 99; 93; 93; 123; 50; 44; 51; 125; 63; 124; 92; 78; 123; 65; 125; 43; 92; 112; 123; 76; 125]%N.
Definition pe_tree : pnode :=
  PAlt (PCat (PAtom (AClass [65; 66; 97; 98] bs_empty true)) (PRep false (PAtom (AClass [66; 67; 68; 69; 98; 99; 100; 101] bs_empty true)) 2 3))%N
       (PCat (PRep true (PAtom (ALit 955)) 1 UNBOUNDED) (PAtom (AClass [65; 91] bs_empty true)))%N.
Example pe_parsed : parse small_icu false false false pe_text = Ok (pe_tree, 13%nat).
Proof. vm_compute. reflexivity. Qed.
Example pe_bytes : bytes pe_text.
Proof. unfold pe_text. repeat (constructor; [lia|]). constructor. Qed.
(** A decision procedure for the examples *)
Fixpoint runs_within (k d : nat) (l : list N) : bool :=
  match l with
  | [] => true
  | c :: l => if ((48 <=? c) && (c <=? 57))%N then (if (k <? d)%nat then runs_within (S k) d l else false) else runs_within 0 d l
  end.
Lemma runs_within_prefix d ds : Forall digit_byte ds -> forall k b, (k <= d)%nat -> runs_within k d (ds ++ b) = true -> (k + length ds <= d)%nat.
Proof.
  induction 1 as [|c ds C F IH]; intros k b K; cbn [length app runs_within]; [lia|]. unfold digit_byte in C. destruct (N.leb_spec 48 c); [|lia]. destruct (N.leb_spec c 57); [|lia]. cbn [andb].
  destruct (Nat.ltb_spec k d); [|discriminate]. intros R. apply IH in R; lia.
Qed.
Lemma runs_within_mono d l : forall i j, (i <= j)%nat -> runs_within j d l = true -> runs_within i d l = true.
Proof. induction l as [|c l IH]; intros i j L; cbn [runs_within]; auto. destruct (_ && _); auto. destruct (Nat.ltb_spec j d); [|discriminate]. destruct (Nat.ltb_spec i d); [|lia]. apply IH; lia. Qed.
Lemma runs_within_ok d l : runs_within 0 d l = true -> digit_runs d l.
Proof.
  intros R a ds b ->. enough (R' : runs_within 0 d (ds ++ b) = true). { intros F. apply (runs_within_prefix d ds F 0 b); auto. lia. }
  revert R. induction a as [|c a IH]; auto. cbn [app runs_within]. destruct (_ && _); auto. destruct (0 <? d)%nat; [|discriminate]. intros R. apply IH. apply runs_within_mono with 1%nat; auto.
Qed.

Example pe_runs : digit_runs 1 pe_text.
Proof. apply runs_within_ok. reflexivity. Qed.
Example pe_length : (10 ^ N.of_nat 1 * (2 * N.of_nat (length pe_text) + extra_nodes 0 pe_text + 2 * boundaries 0 pe_text) < UNBOUNDED)%N.
Proof. vm_compute. reflexivity. Qed.
Example pe_meets : parsed pe_text pe_tree.
Proof. apply (parse_parsed _ _ _ _ _ _ _ 1 small_icu_ok pe_bytes pe_runs pe_length pe_parsed). Qed.
Example pe_reserved : (N.of_nat 13 <= reserved pe_text)%N.
Proof. apply (parse_nodes_reserved _ _ _ _ _ _ _ small_icu_ok pe_bytes ltac:(vm_compute; reflexivity) pe_parsed). Qed.
Example pe_count : (N.of_nat 13 <= 69)%N /\ nodesUpperBound pe_text = 69%N.
Proof. split; [|reflexivity]. apply (parse_nodes _ _ _ _ _ _ _ small_icu_ok pe_bytes pe_parsed). Qed.
Example pe_derived : exists cps o' m, transform_utf8_to_unicode pe_text = Ok cps /\ alt small_icu (first_opts false false) (lex small_icu (length cps) false cps) o' pe_tree m /\ 13%nat = S m.
Proof. apply (parse_grammar _ _ _ _ _ _ _ small_icu_ok pe_bytes pe_parsed). Qed.
Example pe_safe : parse small_icu false true true pe_text <> UB.
Proof.
  intros E. destruct (parse_safe small_icu false true true pe_text small_icu_ok pe_bytes) as (_ & S). destruct (S E) as [(_ & C)|C].
  - apply (C (map Z.of_N pe_text)). exists (map (fun b => [b]) pe_text). split; [|reflexivity]. repeat (constructor; [apply U8_1; reflexivity|]). constructor.
  - apply C. apply runs_within_ok. reflexivity.
Qed.
(** Texts the parser refuses: an unbalanced group, and a class that is empty *)
Example pe_refused : parse small_icu false false false [40; 97]%N = Throw /\ parse small_icu false false false [91; 97; 38; 38; 98; 93]%N = Throw.
Proof. split; vm_compute; reflexivity. Qed.
