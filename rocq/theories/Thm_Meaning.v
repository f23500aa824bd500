(** C53: what a pattern stands for, from its text to the hits. *)
From Coq Require Import Sorting.Permutation Sorting.Sorted.
From Verif Require Import VmSpec VmIdeal VmSim VmGeneric VmCalls VmCheck Thm_VmRun.
From Verif Require Import Base NfaModel VmModel VmRunnable VmSearch CodegenLayout CodegenModel CodegenSpec CodegenTotal CodegenRun Thm_Codegen RangeSetModel RangeSetProofs ByteSetModel ByteSetProofs Thm_ByteSet UtfModel UtfProofs Thm_Utf EscModel
  EncModel EncProofs EncUtf Thm_Enc PatModel PatSpec RewriteProofs Thm_Rewrite BuildModel BuildSpec BuildTree BuildEnc BuildTail ReduceBuild ReduceEmpty ReduceSub Thm_Build OptModel OptSpec OptLive OptZero OptPipe Thm_Pipe Thm_Api
  ParseModel ParseSets ParseGrammar ParseRun ParseText ParseFixed Thm_Parse Thm_Fixed Thm_Class.
Import PatSpec.
Open Scope Z_scope.

(** * Languages *)

Definition language := list N -> Prop.
Definition either (L M : language) : language := fun w => L w \/ M w.
Definition followed (L M : language) : language := fun w => exists u v, w = u ++ v /\ L u /\ M v.
(** At least [least] and, unless [most] is [None], at most [most] texts of [L] *)
Definition repeated (least : Z) (most : option Z) (L : language) : language := fun w =>
  exists ws, Forall L ws /\ w = List.concat ws /\ least <= Z.of_nat (length ws) /\ match most with None => True | Some m => Z.of_nat (length ws) <= m end.
Definition one_of (enc : encoder) (P : N -> Prop) : language := fun w => exists x, (x < MAXCP)%N /\ P x /\ encodes enc (Z.of_N x) w.

(** * Repetition counts *)

Definition decimal (cs : list Z) : Z := fold_left (fun v c => 10 * v + (c - 48)) cs 0.

(** * Switches: `a` turns on ASCII mode, `i` ignores case, and those after '-' are turned off. *)
Definition switched (o : opts) (on off : list Z) (o' : opts) : Prop :=
  Forall (fun c => c = 97 \/ c = 105) (on ++ off) /\ on ++ off <> [] /\
  ascii o' = (if existsb (Z.eqb 97) off then false else if existsb (Z.eqb 97) on then true else ascii o) /\
  cased o' = (if existsb (Z.eqb 105) off then true else if existsb (Z.eqb 105) on then false else cased o).
Inductive switches (o : opts) : list tok -> opts -> Prop :=
| sws_on on o' : switched o on [] o' -> switches o (TP 40 :: TP 63 :: map TP on ++ [TP 41]) o'
| sws_off on off o' : off <> [] -> switched o on off o' -> switches o (TP 40 :: TP 63 :: map TP on ++ TP 45 :: map TP off ++ [TP 41]) o'.

Inductive counts_as : list tok -> Z -> option Z -> Prop :=
| ca_star : counts_as [TP 42] 0 None
| ca_plus : counts_as [TP 43] 1 None
| ca_opt : counts_as [TP 63] 0 (Some 1)
| ca_exact cs : cs <> [] -> counts_as (TP 123 :: map TDigit cs ++ [TP 125]) (decimal cs) (Some (decimal cs))
| ca_least cs : cs <> [] -> counts_as (TP 123 :: map TDigit cs ++ [TP 44; TP 125]) (decimal cs) None
| ca_between cs ds : cs <> [] -> ds <> [] -> decimal cs <= decimal ds ->
    counts_as (TP 123 :: map TDigit cs ++ TP 44 :: map TDigit ds ++ [TP 125]) (decimal cs) (Some (decimal ds)).

(** * Patterns without look-around *)

Section Says.
Variable I : icu.
Variable R : N -> N -> Prop.
Variable enc : encoder.

(** The flag says that the last part has no repetition operator: a '{' after it starts one. *)
Inductive rank := RAlt | RCat (bare : bool) | RRep (bare : bool) | RAtom.

(** [says k o ts o' L]: read with the options [o], the tokens stand for [L] and leave the options [o'].
    A group puts the options back. *)
Inductive says : rank -> opts -> list tok -> opts -> language -> Prop :=
| sa_cat b o ts o' L : says (RCat b) o ts o' L -> says RAlt o ts o' L
| sa_or b o ts o1 L us o2 M : says RAlt o ts o1 L -> says (RCat b) o1 us o2 M -> says RAlt o (ts ++ TP 124 :: us) o2 (either L M)
| sa_switch o ts o1 us o2 L : switches o ts o1 -> says RAlt o1 us o2 L -> says RAlt o (ts ++ us) o2 L
| sa_rep b o ts o' L : says (RRep b) o ts o' L -> says (RCat b) o ts o' L
| sa_then b b' o ts o1 L us o2 M : says (RCat b) o ts o1 L -> says (RRep b') o1 us o2 M -> (b = true -> forall vs, us <> TP 123 :: vs) ->
    says (RCat b') o (ts ++ us) o2 (followed L M)
| sa_switch_after b o ts o1 L us o2 : says (RCat b) o ts o1 L -> switches o1 us o2 -> says (RCat false) o (ts ++ us) o2 L
| sa_atom o ts o' L : says RAtom o ts o' L -> says (RRep true) o ts o' L
| sa_greedy o ts o' L us a b : says RAtom o ts o' L -> counts_as us a b -> says (RRep false) o (ts ++ us) o' (repeated a b L)
| sa_lazy o ts o' L us a b : says RAtom o ts o' L -> counts_as us a b -> says (RRep false) o (ts ++ us ++ [TP 63]) o' (repeated a b L)
| sa_group o ts o' L : says RAlt o ts o' L -> says RAtom o (TP 40 :: ts ++ [TP 41]) o L
| sa_char o k c : k = TChar c \/ k = TDigit c \/ (k = TP c /\ ~ In c [36; 40; 41; 42; 43; 46; 63; 91; 94; 124]) ->
    says RAtom o [k] o (one_of enc (counts R o (Z.to_N c)))
| sa_dot o : says RAtom o [TP 46] o (one_of enc (fun _ => True))
| sa_byte o b : says RAtom o [TByte b] o (eq [Z.to_N b])
| sa_twice o k c : (k, c) = (TMinus, 45) \/ (k, c) = (TAnd, 38) \/ (k, c) = (TXor, 126) ->
    says RAtom o [k] o (followed (encodes enc c) (encodes enc c))
| sa_class o ts e : written Whole e ts -> says RAtom o ts o (one_of enc (mean I R o e))
(** a class with bytes: see class_union_bytes_refuted *)
| sa_byte_class o ts c n b : charclass I o ts c n -> In (TByte b) ts -> says RAtom o ts o (lang (enc_atom enc) (cset_node c)).
End Says.

Lemma number_decimal ts v : number ts v -> exists cs, ts = map TDigit cs /\ cs <> [] /\ v = decimal cs.
Proof.
  induction 1 as [d|ts v d N (cs & -> & NE & ->) L].
  - exists [d]. split; auto. split; [discriminate|]. unfold decimal. simpl. lia.
  - exists (cs ++ [d]). rewrite map_app. split; auto. split; [destruct cs; discriminate|]. unfold decimal. rewrite fold_left_app. simpl. lia.
Qed.

Definition bound (mx : N) : option Z := if (mx =? UNBOUNDED)%N then None else Some (Z.of_N mx).

Lemma quant_counts ts mn mx n : quant ts mn mx n -> Forall tok_ok ts -> counts_as ts (Z.of_N mn) (bound mx).
Proof.
  assert (B : forall ts v, number ts v -> Forall tok_ok ts -> 0 <= v <= INT_MAX) by (intros ts' v H F; apply (proj2 (number_digits ts' v H) F)).
  assert (U : forall v, 0 <= v <= INT_MAX -> bound (Z.to_N v) = Some v). { intros v H. unfold bound, UNBOUNDED, INT_MAX in *. destruct (N.eqb_spec (Z.to_N v) 4294967295); [lia|]. rewrite Z2N.id by lia. auto. }
  intros [| | |us v H|us v H|us v vs w H G L] F; try (constructor; fail).
  - inversion F as [|? ? _ F1]; subst. apply Forall_app in F1 as [F1 _]. pose proof (B _ _ H F1). rewrite U, Z2N.id by lia. destruct (number_decimal _ _ H) as (cs & -> & NE & ->). constructor. auto.
  - inversion F as [|? ? _ F1]; subst. apply Forall_app in F1 as [F1 _]. pose proof (B _ _ H F1). rewrite Z2N.id by lia. destruct (number_decimal _ _ H) as (cs & -> & NE & ->). constructor. auto.
  - inversion F as [|? ? _ F1]; subst. apply Forall_app in F1 as [F1 F2]. inversion F2 as [|? ? _ F3]; subst. apply Forall_app in F3 as [F3 _]. pose proof (B _ _ H F1). pose proof (B _ _ G F3). rewrite U, Z2N.id by lia. destruct (number_decimal _ _ H) as (cs & -> & NE & ->). destruct (number_decimal _ _ G) as (ds & -> & NE' & ->). constructor; auto.
Qed.

Lemma turns_flags on ts : forall o o', turns on ts o = Some o' -> exists cs, ts = map TP cs /\ Forall (fun c => c = 97 \/ c = 105) cs /\
  ascii o' = (if existsb (Z.eqb 97) cs then on else ascii o) /\ cased o' = (if existsb (Z.eqb 105) cs then negb on else cased o).
Proof.
  induction ts as [|k ts IH]; intros o o' E; cbn [turns] in E.
  - injection E as <-. exists []. auto.
  - destruct (turn on k o) as [o1|] eqn:Et; [|discriminate]. destruct (IH _ _ E) as (cs & -> & F & A & C).
    destruct k as [c| | | | | | | | | | | | |]; try discriminate Et. cbn [turn] in Et. exists (c :: cs). split; auto. cbn [existsb].
    destruct (Z.eqb_spec c 97) as [->|N1]; [|destruct (Z.eqb_spec c 105) as [->|N2]; [|discriminate]]; injection Et as <-; cbn [ascii cased] in *.
    + split; [constructor; auto|]. split; [rewrite A; destruct (existsb (Z.eqb 97) cs); reflexivity|exact C].
    + split; [constructor; auto|]. split; [exact A|rewrite C; destruct (existsb (Z.eqb 105) cs); reflexivity].
Qed.

Lemma switch_switches o ts o' : switch o ts o' -> switches o ts o'.
Proof.
  intros [ts' o1 NE E|ts' o1 NE E|ts' o1 us o2 NE E NE' E'].
  - destruct (turns_flags _ _ _ _ E) as (cs & -> & F & A & C). constructor. unfold switched. rewrite app_nil_r. split; auto. split; [intros ->; apply NE; auto|]. cbn [existsb]. auto.
  - destruct (turns_flags _ _ _ _ E) as (cs & -> & F & A & C). apply (sws_off o [] cs); [intros ->; apply NE; auto|]. unfold switched. cbn [app existsb]. split; auto. split; [intros ->; apply NE; auto|]. auto.
  - destruct (turns_flags _ _ _ _ E) as (cs & -> & F & A & C). destruct (turns_flags _ _ _ _ E') as (ds & -> & F' & A' & C'). apply (sws_off o cs ds); [intros ->; apply NE'; auto|]. unfold switched. split; [apply Forall_app; auto|]. split; [destruct cs; [destruct NE; auto|discriminate]|]. rewrite A', C', A, C. auto.
Qed.

Lemma pow_repeated L n w : pow L n w <-> exists ws, Forall L ws /\ w = List.concat ws /\ length ws = n.
Proof.
  revert w. induction n as [|n IH]; intros w; cbn [pow].
  - split; [intros ->; exists []; auto|]. intros ([|x ws] & _ & -> & E); [auto|discriminate].
  - split.
    + intros (u & v & -> & H & G). apply IH in G as (ws & F & -> & E). exists (u :: ws). split; [constructor; auto|]. split; auto. simpl. auto.
    + intros ([|x ws] & F & -> & E); [discriminate|]. inversion F; subst. exists x, (List.concat ws). split; auto. split; auto. apply IH. exists ws. simpl in E. auto.
Qed.

Lemma rep_repeated A g t mn mx w L : (forall w, lang A t w <-> L w) -> (lang A (PRep g t mn mx) w <-> repeated (Z.of_N mn) (bound mx) L w).
Proof.
  intros H. cbn [lang]. unfold repeated. assert (P : forall n w, pow (lang A t) n w <-> pow L n w).
  { induction n as [|n IH]; intros v; cbn [pow]; [tauto|]. split; intros (x & y & E & X & Y); exists x, y; split; auto; (split; [apply H; auto|apply IH; auto]). }
  split.
  - intros (n & (W1 & W2) & G). apply P, pow_repeated in G as (ws & F & E & <-). exists ws. split; auto. split; auto. split; [lia|]. unfold bound. destruct (N.eqb_spec mx UNBOUNDED); auto. destruct W2; [contradiction|lia].
  - intros (ws & F & E & W1 & W2). exists (length ws). split; [|apply P, pow_repeated; eauto]. split; [lia|]. unfold bound in W2. destruct (N.eqb_spec mx UNBOUNDED); auto. right. lia.
Qed.

Section Means.
Variable I : icu.
Variable R : N -> N -> Prop.
Variable enc : encoder.
Hypothesis IO : icu_ok I.
Hypothesis IF : icu_folds I R.

Definition meant (k : rank) (o : opts) (ts : list tok) (o' : opts) (t : pnode) : Prop :=
  Forall tok_ok ts -> has_look t = false -> exists L, says I R enc k o ts o' L /\ forall w, lang (enc_atom enc) t w <-> L w.

Lemma char_says o c t : 0 <= c < 1114112 -> literal_node I o c = Ok t -> forall w, lang (enc_atom enc) t w <-> one_of enc (counts R o (Z.to_N c)) w.
Proof.
  intros L E w. destruct (literal_case I R IF o c L) as (p & a & E' & -> & H). rewrite E in E'. injection E' as ->. cbn [lang]. rewrite H. unfold one_of, counts. destruct (cased o).
  - split; [intros (x & -> & G); exists (Z.to_N c); split; [unfold MAXCP; lia|auto]|]. intros (x & _ & <- & G). eauto.
  - split; [intros (x & (A & B) & G); exists x; auto|]. intros (x & A & B & G). exists x. auto.
Qed.

Lemma simple_says o k t n : simple_atom I o k = Some (Ok (t, n)) -> tok_ok k -> has_look t = false -> exists L, says I R enc RAtom o [k] o L /\ forall w, lang (enc_atom enc) t w <-> L w.
Proof.
  intros E K HL.
  assert (LIT : forall c, character k = Some c -> (x <- literal_node I o c ;; Ok (x, 1%nat)) = Ok (t, n) -> k = TChar c \/ k = TDigit c \/ (k = TP c /\ ~ In c [36; 40; 41; 42; 43; 46; 63; 91; 94; 124]) -> exists L, says I R enc RAtom o [k] o L /\ forall w, lang (enc_atom enc) t w <-> L w).
  { intros c Ec El KC. destruct (literal_node I o c) as [x| | |] eqn:Ex; try discriminate. injection El as -> _. eexists. split; [apply sa_char; exact KC|]. apply char_says; auto. destruct KC as [->|[->|(-> & _)]]; simpl in K; lia. }
  destruct k as [c|c|c|b| | | | | | | | |s|]; cbn [simple_atom] in E.
  - destruct (character (TP c)) as [c'|] eqn:Ec.
    + injection E as E. cbn [character] in Ec. destruct (existsb (Z.eqb c) _) eqn:Ee; [|discriminate]. injection Ec as <-. apply (LIT c); [reflexivity|exact E|]. right; right. split; auto.
      intros H. apply existsb_exists in Ee as (y & Hy & Ey). apply Z.eqb_eq in Ey. subst y. cbn in Hy, H. lia.
    + destruct (Z.eqb_spec c 46) as [->|]; [|destruct (c =? 94); [injection E as <- <-; discriminate|]; destruct (c =? 36); [injection E as <- <-; discriminate|discriminate]].
      injection E as <- <-. exists (one_of enc (fun _ => True)). split; [constructor|]. intros w. cbn [lang enc_atom]. unfold one_of. split; [intros (x & H & G); eauto|]. intros (x & H & _ & G). eauto.
  - injection E as E. apply (LIT c); auto.
  - injection E as E. apply (LIT c); auto.
  - injection E as <- <-. exists (eq [Z.to_N b]). split; [constructor|]. intros w. cbn [lang enc_atom]. split; auto.
  - injection E as <- <-. exists (followed (encodes enc 45) (encodes enc 45)). split; [apply sa_twice; auto|]. intros w. cbn [two lang enc_atom]. unfold followed. tauto.
  - injection E as <- <-. exists (followed (encodes enc 38) (encodes enc 38)). split; [apply sa_twice; auto|]. intros w. cbn [two lang enc_atom]. unfold followed. tauto.
  - injection E as <- <-. exists (followed (encodes enc 126) (encodes enc 126)). split; [apply sa_twice; auto|]. intros w. cbn [two lang enc_atom]. unfold followed. tauto.
  - injection E as <- <-. discriminate.
  - injection E as <- <-. discriminate.
  - injection E as E _. subst t. discriminate.
  - discriminate.
  - injection E as E _. subst t. discriminate.
  - discriminate.
  - discriminate.
Qed.

Lemma has_byte_dec ts : (exists b, In (TByte b) ts) \/ no_bytes ts.
Proof.
  induction ts as [|k ts [(b & H)|H]]; [right; intros b []|left; exists b; right; auto|].
  destruct k as [| | |b| | | | | | | | | |]; try (right; intros b [K|K]; [discriminate K|apply (H b K)]). left. exists b. left. auto.
Qed.

Lemma all_meant :
  (forall o ts o' t n, alt I o ts o' t n -> meant RAlt o ts o' t) /\
  (forall b o ts o' t n, concat I b o ts o' t n -> meant (RCat b) o ts o' t) /\
  (forall b o ts o' t n, rep I b o ts o' t n -> meant (RRep b) o ts o' t) /\
  (forall o ts o' t n, patom I o ts o' t n -> meant RAtom o ts o' t).
Proof.
  apply (alt_mut I (fun o ts o' t _ => meant RAlt o ts o' t) (fun b o ts o' t _ => meant (RCat b) o ts o' t) (fun b o ts o' t _ => meant (RRep b) o ts o' t) (fun o ts o' t _ => meant RAtom o ts o' t)); unfold meant.
  - intros b0 o ts o' t n _ IH F HL. destruct (IH F HL) as (L & S & E). exists L. split; auto. eapply sa_cat; eauto.
  - intros b0 o ts o1 t n us o2 u m _ IH1 _ IH2 F HL. cbn [has_look] in HL. apply orb_false_iff in HL as [H1 H2]. apply Forall_app in F as [F1 F2]. inversion F2 as [|? ? _ F3]; subst. destruct (IH1 F1 H1) as (L & S & E). destruct (IH2 F3 H2) as (M & S' & E'). exists (either L M). split; [eapply sa_or; eauto|]. intros w. cbn [lang]. unfold either. rewrite E, E'. tauto.
  - intros o ts o1 us o2 t n SW _ IH F HL. apply Forall_app in F as [F1 F2]. destruct (IH F2 HL) as (L & S & E). exists L. split; auto. eapply sa_switch; eauto. apply switch_switches; auto.
  - intros b0 o ts o' t n _ IH F HL. destruct (IH F HL) as (L & S & E). exists L. split; auto. apply sa_rep; auto.
  - intros b1 b2 o ts o1 t n us o2 u m _ IH1 _ IH2 HB F HL. cbn [has_look] in HL. apply orb_false_iff in HL as [H1 H2]. apply Forall_app in F as [F1 F2]. destruct (IH1 F1 H1) as (L & S & E). destruct (IH2 F2 H2) as (M & S' & E'). exists (followed L M). split; [eapply sa_then; eauto; intros Hb vs Ev; specialize (HB Hb); rewrite Ev in HB; discriminate HB|]. intros w. cbn [lang]. unfold followed. split; intros (x & y & Q & X & Y); exists x, y; split; auto; (split; [apply E; auto|apply E'; auto]).
  - intros b0 o ts o1 t n _ _ F HL. discriminate HL.
  - intros b0 o ts o1 t n us o2 _ IH SW F HL. apply Forall_app in F as [F1 F2]. destruct (IH F1 HL) as (L & S & E). exists L. split; auto. eapply sa_switch_after; eauto. apply switch_switches; auto.
  - intros o ts o' t n _ IH F HL. destruct (IH F HL) as (L & S & E). exists L. split; auto. apply sa_atom; auto.
  - intros o ts o' t n us mn mx m _ IH Q F HL. apply Forall_app in F as [F1 F2]. destruct (IH F1 HL) as (L & S & E). exists (repeated (Z.of_N mn) (bound mx) L). split; [apply sa_greedy; auto; eapply quant_counts; eauto|]. intros w. apply rep_repeated; auto.
  - intros o ts o' t n us mn mx m _ IH Q F HL. apply Forall_app in F as [F1 F2]. apply Forall_app in F2 as [F2 _]. destruct (IH F1 HL) as (L & S & E). exists (repeated (Z.of_N mn) (bound mx) L). split; [apply sa_lazy; auto; eapply quant_counts; eauto|]. intros w. apply rep_repeated; auto.
  - intros o ts o' t n _ IH F HL. inversion F as [|? ? _ F1]; subst. apply Forall_app in F1 as [F1 _]. destruct (IH F1 HL) as (L & S & E). exists L. split; auto. eapply sa_group; eauto.
  - intros o k ts o' t n _ _ _ F HL. discriminate HL.
  - intros o k t n E F HL. inversion F; subst. eapply simple_says; eauto.
  - intros o ts c n H F HL. destruct (has_byte_dec ts) as [(b & Hb)|NB].
    + exists (lang (enc_atom enc) (cset_node c)). split; [eapply sa_byte_class; eauto|]. tauto.
    + destruct (class_meaning I R o ts c n IO IF F NB H) as (e & W & _ & M & _). exists (one_of enc (mean I R o e)). split; [apply sa_class; auto|]. apply M.
Qed.
End Means.

(** * C53: what the parser makes of a pattern *)

(** A pattern without look-around stands for what it says: characters, in the case or the cases the
    options of their place give, '.', bytes, classes, groups, sequences, alternatives and repetitions. *)
Theorem pattern_meaning I R enc fixed insensitive unicode text t n : icu_ok I -> icu_folds I R -> bytes text ->
  parse I fixed insensitive unicode text = Ok (t, n) -> has_look t = false ->
  exists cps o' L, transform_utf8_to_unicode text = Ok cps /\
    says I R enc RAlt (first_opts insensitive unicode) (lex I (length cps) fixed cps) o' L /\ forall w, lang (enc_atom enc) t w <-> L w.
Proof.
  intros IO IF B E HL. pose proof (parse_spec I fixed insensitive unicode text IO B) as S. rewrite E in S. destruct S as (cps & ws & o' & m & -> & F & T & A & _).
  destruct (proj1 (all_meant I R enc IO IF) _ _ _ _ _ A (lex_ok I IO fixed (length cps) cps (reads_bound _ _ F)) HL) as (L & SA & EQ). exists cps, o', L. auto.
Qed.
Print Assumptions pattern_meaning.

(** * What the rewriting keeps *)

Notation sub A t u := (forall w, lang A t w -> lang A u w).

Section Sup.
Variable A : atom -> list N -> Prop.

Lemma ra_sup t : sub A t (fst (makeBinopsRightAssociative t)).
Proof.
  induction t as [k t IH|l IHl r IHr|l IHl r IHr|g t IH mn mx|a]; cbn [makeBinopsRightAssociative].
  - destruct (makeBinopsRightAssociative t); intros w H; destruct H.
  - destruct (makeBinopsRightAssociative l) as [l' b1], (makeBinopsRightAssociative r) as [r' b2]. cbn [fst] in *.
    assert (S : sub A (PAlt l r) (PAlt l' r')) by (apply sub_alt; auto). destruct l'; auto. cbn [fst]. intros w H. apply S in H. simpl in *. tauto.
  - destruct (makeBinopsRightAssociative l) as [l' b1], (makeBinopsRightAssociative r) as [r' b2]. cbn [fst] in *.
    assert (S : sub A (PCat l r) (PCat l' r')) by (apply sub_cat; auto). destruct l'; auto. cbn [fst]. intros w H. apply S in H. destruct H as (u & v & -> & (x & y & -> & X & Y) & H).
    exists x, (y ++ v). rewrite app_assoc. split; auto. split; auto. exists y, v. auto.
  - destruct (makeBinopsRightAssociative t) as [t' b]. cbn [fst] in *. apply sub_rep; auto.
  - intros w H. exact H.
Qed.

Lemma pow_empty (L : language) n w : (forall w, L w -> w = []) -> pow L n w -> w = [].
Proof. intros H. revert w. induction n as [|n IH]; intros w; cbn [pow]; auto. intros (u & v & -> & X & Y). apply H in X. apply IH in Y. subst. auto. Qed.

Lemma only_zero_text t : empty_branch_last t -> has_only_zero_length_match t = true -> forall w, lang A t w -> w = [].
Proof.
  induction t as [k t IH|l IHl r IHr|l IHl r IHr|g t IH mn mx|a]; cbn [empty_branch_last has_only_zero_length_match lang]; intros HE H w; try discriminate.
  - destruct HE as (HS & _). apply solid_oz in HS. congruence.
  - apply andb_true_iff in H as (H1 & H2). intros (u & v & -> & X & Y). rewrite (IHl (proj1 HE) H1 u X), (IHr (proj2 HE) H2 v Y). auto.
  - intros (n & (W1 & W2) & P). apply orb_true_iff in H as [H|H]; [|eapply pow_empty; [|exact P]; apply IH; auto].
    apply andb_true_iff in H as (H1 & H2). apply N.eqb_eq in H1, H2. subst. destruct W2 as [W2|W2]; [discriminate W2|]. destruct n; [exact P|lia].
Qed.

Lemma subtrees_oz t : empty_branch_last t -> has_only_zero_length_match (reduceEmptySubtrees t) = has_only_zero_length_match t.
Proof.
  induction t as [k t IH|l IHl r IHr|l IHl r IHr|g t IH mn mx|a]; cbn [empty_branch_last]; intros HE; cbn [reduceEmptySubtrees]; match goal with |- context [if ?b then dummy else _] => destruct b eqn:Z end; auto.
  - destruct HE as (HS & HL & HR). cbn [has_only_zero_length_match] in Z. destruct (has_only_zero_length_match (reduceEmptySubtrees r)); cbn [has_only_zero_length_match]; rewrite IHl; auto.
  - destruct HE as (HL & HR). cbn [has_only_zero_length_match] in Z. rewrite IHl, IHr by auto. destruct (has_only_zero_length_match l) eqn:El; [rewrite IHr by auto; cbn [andb] in Z; auto|]. destruct (has_only_zero_length_match r) eqn:Er; [rewrite IHl; auto|]. cbn [has_only_zero_length_match]. rewrite IHl; auto.
  - cbn [has_only_zero_length_match] in *. rewrite IH; auto.
Qed.

Lemma sub_refl t : sub A t t. Proof. intros w H; exact H. Qed.

Lemma subtrees_sup t : empty_branch_last t -> sub A t (reduceEmptySubtrees t).
Proof.
  induction t as [k t IH|l IHl r IHr|l IHl r IHr|g t IH mn mx|a]; intros HE; pose proof (only_zero_text _ HE) as OZ; cbn [reduceEmptySubtrees]; match goal with |- context [if ?b then dummy else _] => destruct b eqn:Z end;
    try (intros w H; apply OZ in H; [subst w; exists 0%nat; split; [split; [reflexivity|right; reflexivity]|reflexivity]|reflexivity]); try apply sub_refl.
  - cbn [empty_branch_last] in HE. destruct HE as (HS & HL & HR). rewrite subtrees_oz by auto. destruct (has_only_zero_length_match r) eqn:Er; [|apply sub_alt; auto].
    intros w [H|H]; [exists 1%nat; split; [split; [lia|right; reflexivity]|]; exists w, []; rewrite app_nil_r; split; auto; split; [apply IHl; auto|reflexivity]|].
    apply (only_zero_text r HR Er) in H. subst w. exists 0%nat. split; [split; [lia|right; lia]|reflexivity].
  - cbn [empty_branch_last] in HE. destruct HE as (HL & HR). rewrite !subtrees_oz by auto. destruct (has_only_zero_length_match l) eqn:El.
    + intros w (u & v & -> & X & Y). rewrite (only_zero_text l HL El u X). apply IHr; auto.
    + destruct (has_only_zero_length_match r) eqn:Er; [|apply sub_cat; auto]. intros w (u & v & -> & X & Y). rewrite (only_zero_text r HR Er v Y), app_nil_r. apply IHl; auto.
  - apply sub_rep, IH. exact HE.
Qed.

Lemma useless_sup t : sub A t (reduceUselessRepetitions t).
Proof.
  induction t as [k t IH|l IHl r IHr|l IHl r IHr|g t IH mn mx|a]; cbn [reduceUselessRepetitions]; try apply sub_refl.
  - apply sub_alt; auto.
  - apply sub_cat; auto.
  - destruct ((mn =? 1)%N && (mx =? 1)%N) eqn:E.
    + apply andb_true_iff in E as (E1 & E2). apply N.eqb_eq in E1, E2. subst. intros w (n & (W1 & W2) & P). destruct W2 as [W2|W2]; [discriminate W2|]. assert (n = 1%nat) by lia. subst n. destruct P as (u & v & -> & X & ->). rewrite app_nil_r. apply IH; auto.
    + destruct (negb g && (mn =? mx)%N); apply sub_rep; auto.
Qed.
End Sup.

(** Without non-greedy operators, and if a branch that matches only the empty text is the last one of
    its alternation, the rewriting keeps all texts. *)
Theorem reduce_keeps_language_partial A text t t' : bounds_ok t -> (total t < UNBOUNDED)%N -> containsPossibleNongreedy text = false -> empty_branch_last t ->
  reduce text (Some t) = Ok (Some t') -> forall w, lang A t' w <-> lang A t w.
Proof.
  intros TB TT NG EL E w. split; [apply (reduce_adds_nothing A text t t' TB TT E)|]. revert w. change (sub A t t'). revert E.
  unfold reduce. destruct (ra_facts t) as (R1 & R2 & _ & _ & R3 & _). pose proof (ra_sup A t) as S1.
  destruct (makeBinopsRightAssociative t) as [t1 b1]. cbn [fst] in R1, R2, R3, S1. destruct (has_look t1); [discriminate|]. specialize (R1 TB). rewrite <- R2 in TT. specialize (R3 EL).
  destruct (combine_facts t1 R1 TT) as (C1 & C2 & _ & _ & _ & C3 & _ & S2).
  destruct (combineConsecutiveRepetitions t1) as [t2 b2]. cbn [fst] in C1, C2, C3, S2. specialize (S2 A). specialize (C3 R3). rewrite NG.
  assert (ST : sub A t t2) by (intros w H; apply S2, S1; auto).
  destruct (b1 || b2 || false || containsPossibleCountedRepetition text); [|intros [= <-]; auto].
  cbn [reduceEmptySubtrees_root]. destruct (has_only_zero_length_match t2); intros [= <-]. intros w H. apply useless_sup, subtrees_sup, ST; auto.
Qed.
Print Assumptions reduce_keeps_language_partial.

(** * From the text of the pattern to the hits *)

Section Hits.
Variable sort : nat -> nat -> list (list bset) -> list (list bset).
Variable sort_len : list (list bset) -> list (list bset).
Hypothesis sort_perm : forall a b l, Permutation l (sort a b l).
Hypothesis sort_len_perm : forall l, Permutation l (sort_len l).
Hypothesis sort_len_sorted : forall l, StronglySorted (fun a b => (length a <= length b)%nat) (sort_len l).
Notation stream_calls off cs := (chunk_calls off cs ++ [CClose true]).
Variable ks : list (encoder * pnode).
Variable rs : list (option N).
Variable P : program.
Variable fuel : nat.
Hypothesis C : created sort sort_len ks rs P.
Hypothesis HV : (2 * length (p_words P) <= fuel)%nat.

Lemma leftmost_found M stop off hs : (forall s x, (off <= s)%N -> In x (M s) -> (s < x)%N) -> forall m, leftmost M stop m hs -> (off <= m)%N -> forall s x, In (s, x) hs -> (off <= s)%N /\ In x (M s).
Proof.
  intros HM m H. induction H as [m H|m s x r H1 H2 H3 H4 H5 IH]; intros HO s' x' K; [destruct K|]. assert (X : In x (M s)) by (destruct (M s); [discriminate H4|injection H4 as <-; left; auto]).
  destruct K as [[= <- <-]|K]; [split; auto; lia|]. apply IH; auto. specialize (HM s x ltac:(lia) X). lia.
Qed.

(** Every hit of a pattern is a text the pattern says. *)
Theorem pattern_hits I R insensitive unicode text t n t' cs off hits vs j e l : icu_ok I -> icu_folds I R -> bytes text ->
  (off + N.of_nat (length (List.concat cs)) < two64)%N -> bytes (List.concat cs) ->
  session fuel P (stream_calls off cs) = Ok (hits, vs) -> nth_error ks j = Some (e, t') -> nth_error rs j = Some (Some l) ->
  parse I false insensitive unicode text = Ok (t, n) -> parsed text t -> reduce text (Some t) = Ok (Some t') ->
  exists cps o' L, transform_utf8_to_unicode text = Ok cps /\ says I R e RAlt (first_opts insensitive unicode) (lex I (length cps) false cps) o' L /\
    forall h, In h hits -> h_label h = l -> (off <= h_start h < h_end h)%N /\ (h_end h <= off + N.of_nat (length (List.concat cs)))%N /\ L (slice (List.concat cs) off (h_start h) (h_end h)).
Proof.
  intros IO IF Ht Ho Hb E Ek Er EP PA ER.
  assert (HL : has_look t = false). { destruct (has_look t) eqn:H; auto. apply (lookaround_refused text t) in H. congruence. }
  destruct (pattern_meaning I R e false insensitive unicode text t n IO IF Ht EP HL) as (cps & o' & L & T & S & EQ). exists cps, o', L. split; auto. split; auto. intros h Hh Hl.
  destruct (searched_hits_leftmost sort sort_len sort_perm sort_len_perm sort_len_sorted ks rs P fuel C HV cs off hits vs j e _ l Ho Hb E Ek Er) as (M & LM & M1 & _).
  assert (K : In (h_start h, h_end h) (hits_of l hits)). { unfold hits_of. apply in_map_iff. exists h. split; auto. apply filter_In. split; auto. apply N.eqb_eq. auto. }
  destruct (leftmost_found M _ off (hits_of l hits) (fun s x A B => proj1 (proj1 (M1 s x A B))) off LM (N.le_refl off) _ _ K) as (A & B). destruct (M1 _ _ A B) as ((D1 & D2) & G). split; auto. split; auto.
  apply EQ. eapply reduce_adds_nothing; eauto; apply PA.
Qed.

(** Without non-greedy operators, and if a branch that matches only the empty text is the last one of
    its alternation, the hits are found from left to right at the least offset where a text of the
    pattern begins.  Missing: patterns with '??', '*?', '+?' or '{}?', where only a beginning of a text
    may be left to find (trailing_empty_refuted), and alternatives such as `a{0}|b`
    (empty_subtrees_refuted). *)
Theorem pattern_found_partial I R insensitive unicode text t n t' cs off hits vs j e l : icu_ok I -> icu_folds I R -> bytes text ->
  (off + N.of_nat (length (List.concat cs)) < two64)%N -> bytes (List.concat cs) ->
  session fuel P (stream_calls off cs) = Ok (hits, vs) -> nth_error ks j = Some (e, t') -> nth_error rs j = Some (Some l) ->
  parse I false insensitive unicode text = Ok (t, n) -> parsed text t -> reduce text (Some t) = Ok (Some t') -> containsPossibleNongreedy text = false -> empty_branch_last t ->
  let stop := (off + N.of_nat (length (List.concat cs)))%N in
  exists cps o' L M, transform_utf8_to_unicode text = Ok cps /\ says I R e RAlt (first_opts insensitive unicode) (lex I (length cps) false cps) o' L /\ leftmost M stop off (hits_of l hits) /\
    (forall s x, (off <= s)%N -> In x (M s) -> (s < x <= stop)%N /\ L (slice (List.concat cs) off s x)) /\
    (forall s x, (off <= s < x)%N -> (x <= stop)%N -> L (slice (List.concat cs) off s x) -> M s <> []).
Proof.
  intros IO IF Ht Ho Hb E Ek Er EP PA ER NG EL stop.
  assert (HL : has_look t = false). { destruct (has_look t) eqn:H; auto. apply (lookaround_refused text t) in H. congruence. }
  destruct (pattern_meaning I R e false insensitive unicode text t n IO IF Ht EP HL) as (cps & o' & L & T & S & EQ).
  destruct (searched_hits_leftmost sort sort_len sort_perm sort_len_perm sort_len_sorted ks rs P fuel C HV cs off hits vs j e _ l Ho Hb E Ek Er) as (M & LM & M1 & M2).
  pose proof (reduce_keeps_language_partial (enc_atom e) text t t' (pa_bounds _ _ PA) (pa_total _ _ PA) NG EL ER) as KL.
  exists cps, o', L, M. split; auto. split; auto. split; auto. split.
  - intros s x A B. destruct (M1 s x A B) as (D & G). split; auto. apply EQ, KL, G.
  - intros s x A B G. apply (M2 s x A B). apply KL, EQ, G.
Qed.
End Hits.
Print Assumptions pattern_hits.
Print Assumptions pattern_found_partial.

(** * An example: `(?i)q(k|[x-z--y]+)` beside the fixed string `Kx` *)

Definition mn_text : list N := [40; 63; 105; 41; 113; 40; 107; 124; 91; 120; 45; 122; 45; 45; 121; 93; 43; 41]%N.
Definition mn_tree : pnode :=
  PCat (PAtom (AClass [81; 82; 113; 114] bs_empty true))%N (PAlt (PAtom (AClass [75; 76; 107; 108] bs_empty true)) (PRep true (PAtom (AClass [88; 89; 90; 91; 120; 121; 122; 123] bs_empty true)) 1 UNBOUNDED))%N.
Example mn_parsed : parse small_icu false false false mn_text = Ok (mn_tree, 8%nat).
Proof. vm_compute. reflexivity. Qed.
Example mn_bytes : bytes mn_text.
Proof. unfold mn_text. repeat (constructor; [lia|]). constructor. Qed.
Lemma mn_ok : parsed mn_text mn_tree.
Proof. apply (parse_parsed small_icu false false false mn_text mn_tree 8 0 small_icu_ok mn_bytes); [apply runs_within_ok; reflexivity|vm_compute; reflexivity|exact mn_parsed]. Qed.
Example mn_reduced : reduce mn_text (Some mn_tree) = Ok (Some mn_tree).
Proof. vm_compute. reflexivity. Qed.

Definition mn_ks : list (encoder * pnode) := [(EBase UTF8, mn_tree); (EBase UTF8, fx_tree2)].
Definition mn_P : program := match (' (g, rs) <- add_all 2000 [v_new] 0 (map (fun k => (factory_enc no_sort sort_by_len (fst k), Some (snd k))) mn_ks) ;; gf <- finalizeGraph 100 false 4294967295 g ;; createProgram 20 200 gf) with
  Ok P => P | _ => {| p_words := []; p_maxLabel := 0; p_maxCheck := 0; p_filterOff := 0; p_filter := 0 |} end.

Lemma mn_keywords : keywords_ok mn_ks.
Proof.
  split; [|vm_compute; discriminate]. intros e t [[= <- <-]|[[= <- <-]|[]]]; (split; [exact Logic.I|]).
  - apply (parsed_buildable mn_text mn_tree); [exact mn_ok|exact mn_reduced].
  - apply (proj1 fx_keywords (EBase UTF8) fx_tree2). right. left. reflexivity.
Qed.
Lemma mn_created : created no_sort sort_by_len mn_ks [Some 0%N; Some 1%N] mn_P.
Proof.
  assert (HF : (keywords_fuel no_sort sort_by_len mn_ks <= 2000)%nat) by (apply Nat.leb_le; vm_compute; reflexivity).
  assert (X : exists g, add_all 2000 [v_new] 0 (map (fun k => (factory_enc no_sort sort_by_len (fst k), Some (snd k))) mn_ks) = Ok (g, [Some 0%N; Some 1%N])) by (eexists; vm_compute; reflexivity). destruct X as (g & EA).
  assert (X : exists gf, finalizeGraph 100 false 4294967295 g = Ok gf /\ (2 <= length (nodup Nat.eq_dec (outs gf 0)))%nat /\ fits32 gf /\ succeeded (createProgram 20 200 gf) = true).
  { vm_compute in EA. injection EA as <-. eexists. split; [vm_compute; reflexivity|]. split; [apply Nat.leb_le; vm_compute; reflexivity|]. split; vm_compute; reflexivity. }
  destruct X as (gf & EF & Z & F32 & CS).
  assert (CP : createProgram 20 200 gf = Ok mn_P).
  { unfold mn_P. rewrite EA. cbn [bind]. rewrite EF. cbn [bind]. destruct (createProgram 20 200 gf); [reflexivity|discriminate CS..]. }
  exists 2000%nat, 100%nat, 20%nat, 200%nat, false, 4294967295%N, g, gf. split; [exact mn_keywords|]. split; auto. split; auto. split; auto. split; auto. apply two_roots. auto.
Qed.

(** In `aQzxyqKX` *)
Definition mn_data : list (list N) := [[97; 81; 122]; [120; 121; 113; 75; 88]]%N.
Definition mn_hits : list hit := [{| h_start := 6; h_end := 9; h_label := 0 |}; {| h_start := 10; h_end := 12; h_label := 0 |}; {| h_start := 11; h_end := 13; h_label := 1 |}].
Definition mn_rets : list N := match session 400 mn_P (chunk_calls 5 mn_data ++ [CClose true]) with Ok (_, vs) => vs | _ => [] end.
Example mn_searched : (2 * length (p_words mn_P) <= 400)%nat /\ session 400 mn_P (chunk_calls 5 mn_data ++ [CClose true]) = Ok (mn_hits, mn_rets).
Proof. split; [apply Nat.leb_le; vm_compute; reflexivity|]. vm_compute. reflexivity. Qed.
Example mn_found : exists cps o' L M, transform_utf8_to_unicode mn_text = Ok cps /\ says small_icu eq (EBase UTF8) RAlt (first_opts false false) (lex small_icu (length cps) false cps) o' L /\ leftmost M 13 5 [(6, 9); (10, 12)]%N /\
    (forall s x, (5 <= s)%N -> In x (M s) -> (s < x <= 13)%N /\ L (slice (List.concat mn_data) 5 s x)) /\
    (forall s x, (5 <= s < x)%N -> (x <= 13)%N -> L (slice (List.concat mn_data) 5 s x) -> M s <> []).
Proof.
  apply (pattern_found_partial no_sort sort_by_len no_sort_perm by_len_perm by_len_sorted mn_ks _ mn_P 400 mn_created (proj1 mn_searched) small_icu eq false false mn_text mn_tree 8 mn_tree mn_data 5 mn_hits mn_rets 0 (EBase UTF8) 0 small_icu_ok small_folds mn_bytes).
  - reflexivity.
  - repeat (constructor; [lia|]); constructor.
  - apply mn_searched.
  - reflexivity.
  - reflexivity.
  - exact mn_parsed.
  - exact mn_ok.
  - exact mn_reduced.
  - reflexivity.
  - simpl. auto.
Qed.
Example mn_said : exists cps o' L, transform_utf8_to_unicode mn_text = Ok cps /\ says small_icu eq (EBase UTF8) RAlt (first_opts false false) (lex small_icu (length cps) false cps) o' L /\
  forall h, In h mn_hits -> h_label h = 0%N -> (5 <= h_start h < h_end h)%N /\ (h_end h <= 13)%N /\ L (slice (List.concat mn_data) 5 (h_start h) (h_end h)).
Proof.
  apply (pattern_hits no_sort sort_by_len no_sort_perm by_len_perm by_len_sorted mn_ks _ mn_P 400 mn_created (proj1 mn_searched) small_icu eq false false mn_text mn_tree 8 mn_tree mn_data 5 mn_hits mn_rets 0 (EBase UTF8) 0 small_icu_ok small_folds mn_bytes).
  - reflexivity.
  - repeat (constructor; [lia|]); constructor.
  - apply mn_searched.
  - reflexivity.
  - reflexivity.
  - exact mn_parsed.
  - exact mn_ok.
  - exact mn_reduced.
Qed.
Example mn_language : exists cps o' L, transform_utf8_to_unicode mn_text = Ok cps /\ says small_icu eq (EBase (UTF16 true)) RAlt (first_opts false false) (lex small_icu (length cps) false cps) o' L /\ forall w, lang (enc_atom (EBase (UTF16 true))) mn_tree w <-> L w.
Proof. apply (pattern_meaning small_icu eq (EBase (UTF16 true)) false false false mn_text mn_tree 8 small_icu_ok small_folds mn_bytes mn_parsed). reflexivity. Qed.
(** `(b|c{0})d{1}` becomes b?d. *)
Definition kp_text : list N := [40; 98; 124; 99; 123; 48; 125; 41; 100; 123; 49; 125]%N.
Definition kp_tree : pnode := PCat (PAlt (PAtom (ALit 98)) (PRep true (PAtom (ALit 99)) 0 0)) (PRep true (PAtom (ALit 100)) 1 1).
Definition kp_tree' : pnode := PCat (PRep true (PAtom (ALit 98)) 0 1) (PAtom (ALit 100)).
Example kp_kept : parse small_icu false false false kp_text = Ok (kp_tree, 10%nat) /\ reduce kp_text (Some kp_tree) = Ok (Some kp_tree') /\
  forall w, lang (enc_atom (EBase UTF8)) kp_tree' w <-> lang (enc_atom (EBase UTF8)) kp_tree w.
Proof.
  split; [vm_compute; reflexivity|]. split; [reflexivity|]. apply (reduce_keeps_language_partial (enc_atom (EBase UTF8)) kp_text).
  - simpl. unfold UNBOUNDED, two32. repeat split; lia.
  - reflexivity.
  - reflexivity.
  - simpl. auto.
  - reflexivity.
Qed.
