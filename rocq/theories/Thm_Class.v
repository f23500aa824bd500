(** C52: what a character class stands for, from the tokens of the class on. *)
From Verif Require Import Base RangeSetModel RangeSetProofs ByteSetModel ByteSetProofs Thm_ByteSet EncModel EncProofs Thm_Enc PatModel PatSpec BuildModel BuildSpec BuildEnc
  ParseModel ParseSets ParseGrammar ParseRun ParseText Thm_Parse Thm_Fixed.
Import PatSpec.
Open Scope Z_scope.

(** * Classes and what they stand for *)

Inductive cexpr :=
| XChar (a : Z)
| XRange (a b : Z)
| XNamed (s : setname)
| XPos (e : cexpr)
| XNeg (e : cexpr)
| XOp (op : setop) (e f : cexpr).

(** The characters a token stands for in brackets: itself, or backspace for \b *)
Definition token_char (first : bool) (k : tok) (a : Z) : Prop :=
  k = TChar a \/ k = TDigit a \/ (k = TSmallB /\ a = 8) \/ (k = TP a /\ a <> 91 /\ if first then a <> 94 else a <> 93 /\ a <> 45).

(** How a class is written: [Whole], brackets or a named set; [Elem], one of the operands; [Expr],
    operands with operators between them, grouped from the left.  The first flag says that nothing but the
    bracket stands before: there ']' and '-' are characters, and '^' negates.  The second flag says
    that the last operand is a single character: a hyphen after it belongs to a range. *)
Inductive level := Whole | Expr (first bare : bool) | Elem (first bare : bool).
Inductive written : level -> cexpr -> list tok -> Prop :=
| w_pos b e ts : written (Expr true b) e ts -> written Whole (XPos e) (TP 91 :: ts ++ [TP 93])
| w_neg b e ts : written (Expr false b) e ts -> written Whole (XNeg e) (TP 91 :: TP 94 :: ts ++ [TP 93])
| w_named s : written Whole (XNamed s) [TSet s]
| w_elem f b e ts : written (Elem f b) e ts -> written (Expr f b) e ts
| w_op f b b' op e ts g us : written (Expr f b) e ts -> written (Elem false b') g us ->
    (b = true -> forall vs, op_toks op ++ us <> TP 45 :: vs) -> written (Expr f b') (XOp op e g) (ts ++ op_toks op ++ us)
| w_whole f e ts : written Whole e ts -> written (Elem f false) e ts
| w_char f k a : token_char f k a -> written (Elem f true) (XChar a) [k]
| w_hyphen : written (Elem false false) (XChar 45) [TP 45]
| w_range f k l a b : token_char f k a -> token_char false l b -> a < b -> written (Elem f false) (XRange a b) [k; TP 45; l]
| w_dash f k a e ts : token_char f k a -> written Whole e ts -> written (Elem f false) (XOp OUnion (XOp OUnion (XChar a) (XChar 45)) e) (k :: TP 45 :: ts).

Definition unless (b : bool) (P : Prop) : Prop := if b then ~ P else P.

Section Meaning.
Variable I : icu.
Variable R : N -> N -> Prop.
Variable o : opts.

Definition property (p : list Z) (any_case : bool) (x : N) : Prop := exists v, ic_prop I p any_case = Ok v /\ par v x = true.

Definition named (s : setname) (x : N) : Prop :=
  match s with
  | SDigit neg => unless neg (if ascii o then (48 <= x <= 57)%N else property prop_nd false x)
  | SSpace neg => unless neg (if ascii o then (9 <= x <= 13 \/ x = 32)%N else
      (9 <= x <= 13 \/ x = 32 \/ x = 133 \/ x = 160 \/ x = 5760 \/ x = 6158 \/ 8192 <= x <= 8202 \/ x = 8232 \/ x = 8233 \/ x = 8239 \/ x = 8287 \/ x = 12288)%N)
  | SHoriz neg => unless neg (x = 9 \/ x = 32 \/ x = 160 \/ x = 5760 \/ x = 6158 \/ 8192 <= x <= 8202 \/ x = 8239 \/ x = 8287 \/ x = 12288)%N
  | SVert neg => unless neg (10 <= x <= 13 \/ x = 133 \/ x = 8232 \/ x = 8233)%N
  | SWord neg => unless neg (if ascii o then (48 <= x <= 57 \/ 65 <= x <= 90 \/ x = 95 \/ 97 <= x <= 122)%N else
      property prop_l false x \/ property prop_n false x \/ x = 95%N)
  | SProperty p => property p (negb (cased o)) x
  end.

(** The characters that count as [y] *)
Definition counts (y x : N) : Prop := if cased o then y = x else variant R o y x.
Definition closed (P : N -> Prop) (x : N) : Prop := exists y, (y < MAXCP)%N /\ P y /\ counts y x.

Fixpoint mean (e : cexpr) (x : N) : Prop :=
  match e with
  | XChar a => x = Z.to_N a
  | XRange a b => a <= Z.of_N x <= b
  | XNamed s => named s x
  | XPos e => closed (mean e) x
  | XNeg e => ~ closed (mean e) x
  | XOp OUnion e f => mean e x \/ mean f x
  | XOp OAnd e f => mean e x /\ mean f x
  | XOp OMinus e f => mean e x /\ ~ mean f x
  | XOp OXor e f => (mean e x /\ ~ mean f x) \/ (~ mean e x /\ mean f x)
  end.
End Meaning.

(** * The named sets *)

Lemma inserts_par l : forall v, canon MAXCP v -> Forall (fun r => (fst r <= snd r <= MAXCP)%N) l -> forall x,
  par (inserts v l) x = true <-> par v x = true \/ Exists (fun r => (fst r <= x < snd r)%N) l.
Proof.
  induction l as [|[a b] l IH]; intros v C F x; cbn [inserts].
  - split; auto. intros [H|H]; auto. inversion H.
  - inversion F as [|? ? H F']; subst. cbn [fst snd] in H. rewrite IH by (auto; apply insert_canon; auto; lia). rewrite (insert_par MAXCP) by (auto; lia). rewrite Exists_cons. cbn [fst snd].
    rewrite orb_true_iff, andb_true_iff, N.leb_le, N.ltb_lt. tauto.
Qed.

Lemma negate_spec neg v w (P : N -> Prop) : canon MAXCP v -> negate neg v = Ok w -> (forall x, (x < MAXCP)%N -> (par v x = true <-> P x)) ->
  canon MAXCP w /\ forall x, (x < MAXCP)%N -> (par w x = true <-> unless neg (P x)).
Proof.
  intros C E H. destruct neg; cbn [negate unless] in *.
  - destruct (flip_spec MAXCP v maxcp_pos C) as (w' & E' & D & S). rewrite E in E'. injection E' as <-. split; auto. intros x L. rewrite S by auto. rewrite <- (H x L). destruct (par v x); cbn; split; congruence.
  - injection E as <-. auto.
Qed.

Lemma par_nil x : par [] x = true <-> False. Proof. split; [discriminate|tauto]. Qed.
Ltac exl := repeat rewrite Exists_cons; rewrite Exists_nil; cbn [fst snd]; rewrite par_nil.
Ltac fcon := repeat constructor; cbn [fst snd]; unfold MAXCP; lia.

Lemma resolve_named I o s v : icu_ok I -> resolve I o s = Ok v -> canon MAXCP v /\ forall x, (x < MAXCP)%N -> (par v x = true <-> named I o s x).
Proof.
  intros IO E. pose proof (io_prop I IO) as IP. destruct s as [neg|neg|neg|neg|neg|p]; cbn [resolve named] in *.
  - destruct (ascii o); cbn [bind] in E.
    + eapply negate_spec; [|exact E|]; [canon_const|]. intros x L. rewrite inserts_par by (first [apply canon_empty|fcon]). exl. lia.
    + specialize (IP prop_nd false). destruct (ic_prop I prop_nd false) as [w| | |] eqn:Ep; try discriminate. cbn [bind safe] in *. eapply negate_spec; [|exact E|]; auto. intros x L. unfold property. rewrite Ep. split; [eauto|]. intros (u & H & G). injection H as <-. auto.
  - destruct (ascii o).
    + eapply negate_spec; [|exact E|]; [canon_const|]. intros x L. rewrite inserts_par by (first [apply canon_empty|fcon]). exl. lia.
    + assert (C0 : canon MAXCP (inserts [] horiz)) by (unfold horiz; canon_const).
      eapply negate_spec; [|exact E|]; [apply inserts_canon; [exact C0|unfold vert; fcon]|]. intros x L. rewrite inserts_par by (auto; unfold vert; fcon). rewrite inserts_par by (first [apply canon_empty|unfold horiz; fcon]). unfold vert, horiz. exl. lia.
  - eapply negate_spec; [|exact E|]; [unfold horiz; canon_const|]. intros x L. rewrite inserts_par by (first [apply canon_empty|unfold horiz; fcon]). unfold horiz. exl. lia.
  - eapply negate_spec; [|exact E|]; [unfold vert; canon_const|]. intros x L. rewrite inserts_par by (first [apply canon_empty|unfold vert; fcon]). unfold vert. exl. lia.
  - destruct (ascii o); cbn [bind] in E.
    + eapply negate_spec; [|exact E|]; [unfold ParseModel.word; canon_const|]. intros x L. rewrite inserts_par by (first [apply canon_empty|unfold ParseModel.word; fcon]). unfold ParseModel.word. exl. lia.
    + pose proof (IP prop_l false) as Hl. pose proof (IP prop_n false) as Hn. unfold property. destruct (ic_prop I prop_l false) as [l| | |] eqn:El; try discriminate. cbn [bind safe] in *.
      destruct (ic_prop I prop_n false) as [m| | |] eqn:En; try discriminate. cbn [bind safe] in *. destruct (or_spec MAXCP m l Hn Hl) as (u & Eu & Cu & Pu). rewrite Eu in E. cbn [bind] in E.
      eapply negate_spec; [|exact E|]; [apply insert_canon; auto; unfold MAXCP; lia|]. intros x L. rewrite (insert_par MAXCP), Pu by (auto; lia). rewrite !orb_true_iff, andb_true_iff, N.leb_le, N.ltb_lt. split.
      * intros [H|[H|H]]; eauto; right; right; lia.
      * intros [(w & H & G)|[(w & H & G)| ->]]; [injection H as <-; auto|injection H as <-; auto|left; lia].
  - specialize (IP p (negb (cased o))). rewrite E in IP. split; auto. intros x L. unfold property. rewrite E. split; [eauto|]. intros (u & H & G). injection H as <-. auto.
Qed.

(** * Brackets *)

Section Brackets.
Variable I : icu.
Variable R : N -> N -> Prop.
Hypothesis IO : icu_ok I.
Hypothesis IF : icu_folds I R.
Variable o : opts.

(** The set [v] is that of the characters [P] *)
Definition is_set (v : rset) (P : N -> Prop) : Prop := canon MAXCP v /\ forall x, (x < MAXCP)%N -> (par v x = true <-> P x).
Definition is_class (c : cset) (P : N -> Prop) : Prop := is_set (cs_cps c) P /\ cs_bytes c = bs_empty /\ cs_add c = true.

Lemma closed_spec v (P : N -> Prop) : is_set v P -> exists w b, (if cased o then Ok (v, false) else caseDesensitize I v o) = Ok (w, b) /\ is_set w (closed R o P).
Proof.
  intros (C & S). unfold closed, counts. destruct (cased o).
  - exists v, false. split; auto. split; auto. intros x L. rewrite S by auto. split; [eauto|]. intros (y & _ & H & ->). auto.
  - destruct (case_spec I R IF o v C) as (w & b & E & D & W & _). exists w, b. split; auto. split; auto. intros x L. rewrite W by auto. split.
    + intros (y & H & G). exists y. pose proof (par_below v y C H). split; auto. split; auto. apply S; auto.
    + intros (y & Ly & H & G). exists y. split; auto. apply S; auto.
Qed.

Lemma finish_pos_spec c P d : is_class c P -> finish_pos I o c = Ok d -> is_class d (closed R o P) /\ exists x, (x < MAXCP)%N /\ closed R o P x.
Proof.
  intros (S & B & A) E. unfold finish_pos in E. destruct (closed_spec _ _ S) as (w & b & Ew & T). rewrite Ew, B in E. cbn [bind fst] in E. replace (bs_any bs_empty) with false in E by reflexivity. rewrite orb_false_r in E.
  destruct (rs_any w) eqn:Ea; [|discriminate]. injection E as <-. split; [split; [exact T|auto]|]. apply (rs_any_par MAXCP) in Ea; [|apply T]. destruct Ea as (x & H). pose proof (par_below w x (proj1 T) H). exists x. split; auto. apply T; auto.
Qed.

Lemma finish_neg_spec c P d : is_class c P -> finish_neg I o c = Ok d -> is_class d (fun x => ~ closed R o P x) /\ exists x, (x < MAXCP)%N /\ ~ closed R o P x.
Proof.
  intros (S & B & A) E. unfold finish_neg in E. rewrite B in E. replace (bs_any bs_empty) with false in E by reflexivity. destruct (rs_any (cs_cps c)) eqn:Ea.
  - destruct (closed_spec _ _ S) as (w & b & Ew & T). rewrite Ew in E. cbn [bind fst] in E. destruct (flip_spec MAXCP w maxcp_pos (proj1 T)) as (v & Ev & Cv & Pv). rewrite Ev in E. cbn [bind] in E.
    destruct (rs_any v) eqn:Eb; [|discriminate]. injection E as <-.
    assert (V : forall x, (x < MAXCP)%N -> (par v x = true <-> ~ closed R o P x)). { intros x L. rewrite Pv by auto. rewrite <- (proj2 T x L). destruct (par w x); cbn; split; congruence. }
    split; [split; [split; [exact Cv|exact V]|auto]|]. apply (rs_any_par MAXCP) in Eb; auto. destruct Eb as (x & H). pose proof (par_below v x Cv H). exists x. split; auto. apply V; auto.
  - destruct (flip_spec MAXCP (cs_cps c) maxcp_pos (proj1 S)) as (v & Ev & Cv & Pv). rewrite Ev in E. cbn [bind] in E. injection E as <-.
    assert (NO : forall x, (x < MAXCP)%N -> ~ P x). { intros x L H. apply S in H; auto. assert (K : rs_any (cs_cps c) = true) by (apply (rs_any_par MAXCP); [apply S|eauto]). congruence. }
    assert (V : forall x, (x < MAXCP)%N -> par v x = true /\ ~ closed R o P x). { intros x L. split; [|intros (y & Ly & H & _); exact (NO y Ly H)]. rewrite Pv by auto. destruct (par (cs_cps c) x) eqn:Ex; auto. apply S in Ex; auto. destruct (NO x L Ex). }
    split; [split; [split; [exact Cv|intros x L; destruct (V x L); tauto]|auto]|]. exists 0%N. split; [reflexivity|]. apply V. reflexivity.
Qed.

Lemma combine_spec op x y z e f : is_class x (mean I R o e) -> is_class y (mean I R o f) -> combine op x y = Ok z -> is_class z (mean I R o (XOp op e f)).
Proof.
  intros (S & B & A) (T & B' & A') E. pose proof (proj1 S) as C. pose proof (proj1 T) as D. unfold combine in E. rewrite B, B', A in E. destruct op.
  - destruct (or_spec MAXCP (cs_cps y) (cs_cps x) D C) as (v & Ev & Cv & Pv). rewrite Ev in E. injection E as <-. split; [|split; [vm_compute; reflexivity|auto]]. split; auto. intros a L. cbn [cs_cps mean]. rewrite Pv, orb_true_iff. rewrite (proj2 S a L), (proj2 T a L). tauto.
  - destruct (and_spec MAXCP (cs_cps x) (cs_cps y) maxcp_pos C D) as (v & Ev & Cv & Pv). rewrite Ev in E. injection E as <-. split; [|split; [vm_compute; reflexivity|auto]]. split; auto. intros a L. cbn [cs_cps mean]. rewrite Pv, andb_true_iff by auto. rewrite (proj2 S a L), (proj2 T a L). tauto.
  - destruct (sub_spec MAXCP (cs_cps x) (cs_cps y) maxcp_pos C D) as (v & Ev & Cv & Pv). rewrite Ev in E. injection E as <-. split; [|split; [vm_compute; reflexivity|auto]]. split; auto. intros a L. cbn [cs_cps mean]. rewrite Pv, andb_true_iff, negb_true_iff by auto. rewrite <- (proj2 S a L), <- (proj2 T a L). destruct (par (cs_cps y) a); intuition congruence.
  - destruct (xor_spec MAXCP (cs_cps x) (cs_cps y) maxcp_pos C D) as (v & Ev & Cv & Pv). rewrite Ev in E. injection E as <-. split; [|split; [vm_compute; reflexivity|auto]]. split; auto. intros a L. cbn [cs_cps mean]. rewrite Pv by auto. rewrite <- (proj2 S a L), <- (proj2 T a L). destruct (par (cs_cps x) a), (par (cs_cps y) a); cbn; intuition congruence.
Qed.

Lemma char_token first k a : cc_char first k = Some a -> token_char first k a.
Proof.
  intros E. unfold token_char. destruct k; cbn [cc_char] in E; try discriminate; try (injection E as <-; auto; fail).
  right; right; right. destruct (existsb _ _) eqn:X.
  - injection E as <-. apply existsb_exists in X as (y & Hy & Ey). apply Z.eqb_eq in Ey. subst y. cbn in Hy. split; auto. destruct first; lia.
  - destruct first.
    + destruct (Z.eqb_spec c 93); [|destruct (Z.eqb_spec c 45); [|discriminate]]; injection E as <-; repeat split; auto; lia.
    + destruct (Z.eqb_spec c 94); [|discriminate]; injection E as <-; repeat split; auto; lia.
Qed.

Lemma char_set_class a c : 0 <= a < 1114112 -> char_set a = Ok c -> is_class c (mean I R o (XChar a)).
Proof.
  intros L E. unfold char_set in E. destruct (set_spec MAXCP [] (Z.to_N a) true maxcp_pos (canon_empty _) ltac:(unfold MAXCP; lia)) as (v & Ev & Cv & Pv). rewrite Ev in E. injection E as <-.
  split; [|auto]. split; auto. intros x Lx. cbn [cs_cps mean]. rewrite Pv by auto. destruct (N.eqb_spec x (Z.to_N a)); split; auto; discriminate.
Qed.

Lemma char_range_class a b c : 0 <= a < 1114112 -> 0 <= b < 1114112 -> char_range a b = Ok c -> a < b /\ is_class c (mean I R o (XRange a b)).
Proof.
  intros La Lb E. unfold char_range in E. destruct (Z.leb_spec b a) as [|H]; [discriminate|]. injection E as <-. split; auto. split; [|auto]. split; [apply insert_canon; [apply canon_empty| |]; unfold MAXCP; lia|].
  intros x Lx. cbn [cs_cps mean]. rewrite (insert_par MAXCP) by (try apply canon_empty; lia). rewrite orb_true_iff, par_nil. lia.
Qed.

Lemma char_dash_class a c e d : 0 <= a < 1114112 -> is_class c (mean I R o e) -> char_dash a c = Ok d -> is_class d (mean I R o (XOp OUnion (XOp OUnion (XChar a) (XChar 45)) e)).
Proof.
  intros La ((C & S) & B & A) E. injection E as <-. assert (C1 : canon MAXCP (rs_insert (cs_cps c) (Z.to_N a) (Z.to_N a + 1))) by (apply insert_canon; auto; unfold MAXCP; lia).
  split; [|auto]. split; [apply insert_canon; auto; unfold MAXCP; lia|]. intros x Lx. cbn [cs_cps mean]. rewrite !(insert_par MAXCP) by (auto; lia). rewrite !orb_true_iff, !andb_true_iff, !N.leb_le, !N.ltb_lt. rewrite (S x Lx).
  assert (X1 : (Z.to_N a <= x < Z.to_N a + 1)%N <-> x = Z.to_N a) by lia. assert (X2 : (45 <= x < 46)%N <-> x = Z.to_N 45) by lia. rewrite X1, X2. tauto.
Qed.

Definition no_bytes (ts : list tok) : Prop := forall b, ~ In (TByte b) ts.

Lemma classes_mean :
  (forall ts c n, charclass I o ts c n -> Forall tok_ok ts -> no_bytes ts -> exists e, written Whole e ts /\ is_class c (mean I R o e)) /\
  (forall f b ts c n, cc_expr I o f b ts c n -> Forall tok_ok ts -> no_bytes ts -> exists e, written (Expr f b) e ts /\ is_class c (mean I R o e)) /\
  (forall f b ts c n, cc_elem I o f b ts c n -> Forall tok_ok ts -> no_bytes ts -> exists e, written (Elem f b) e ts /\ is_class c (mean I R o e)).
Proof.
  assert (NL : forall a b, no_bytes (a ++ b) -> no_bytes a /\ no_bytes b) by (intros a b H; split; intros x K; apply (H x), in_or_app; auto).
  assert (NC : forall k b, no_bytes (k :: b) -> no_bytes b) by (intros k b H x K; apply (H x); right; auto).
  assert (FC : forall k (b : list tok), Forall tok_ok (k :: b) -> tok_ok k /\ Forall tok_ok b) by (intros k b H; inversion H; auto).
  apply (class_mut I o (fun ts c _ => Forall tok_ok ts -> no_bytes ts -> exists e, written Whole e ts /\ is_class c (mean I R o e))
    (fun f b ts c _ => Forall tok_ok ts -> no_bytes ts -> exists e, written (Expr f b) e ts /\ is_class c (mean I R o e))
    (fun f b ts c _ => Forall tok_ok ts -> no_bytes ts -> exists e, written (Elem f b) e ts /\ is_class c (mean I R o e))).
  - intros b0 ts c n c' _ IH E F N. apply FC in F as [_ F]. apply NC in N. apply Forall_app in F as [F _]. apply NL in N as [N _]. destruct (IH F N) as (e & W & S). exists (XPos e). split; [eapply w_pos; eauto|]. apply (finish_pos_spec c (mean I R o e)); auto.
  - intros b0 ts c n c' _ IH E F N. apply FC in F as [_ F]. apply NC in N. apply FC in F as [_ F]. apply NC in N. apply Forall_app in F as [F _]. apply NL in N as [N _]. destruct (IH F N) as (e & W & S). exists (XNeg e). split; [eapply w_neg; eauto|]. apply (finish_neg_spec c (mean I R o e)); auto.
  - intros s v E F N. exists (XNamed s). split; [constructor|]. split; [apply (resolve_named I o s v IO E)|auto].
  - intros pos b0 ts c n _ IH F N. destruct (IH F N) as (e & W & S). exists e. split; auto. apply w_elem; auto.
  - intros pos b1 b2 op ts us x y z n m _ IHx _ IHy HN E F N. apply Forall_app in F as [F1 F2]. apply NL in N as [N1 N2]. apply Forall_app in F2 as [_ F2]. apply NL in N2 as [_ N2]. destruct (IHx F1 N1) as (e & W & S). destruct (IHy F2 N2) as (f & W' & S'). exists (XOp op e f). split; [eapply w_op; eauto; intros Hb vs Ev; specialize (HN Hb); rewrite Ev in HN; discriminate HN|]. eapply combine_spec; eauto.
  - intros first k1 k2 a b c E1 E2 E F N. apply FC in F as [K1 F]. apply FC in F as [_ F]. apply FC in F as [K2 _]. destruct (char_range_class a b c (cc_char_ok _ _ _ K1 E1) (cc_char_ok _ _ _ K2 E2) E) as (L & S). exists (XRange a b). split; auto. apply w_range; auto; eapply char_token; eauto.
  - intros first k1 a ts c n c' E1 _ IH E F N. apply FC in F as [K1 F]. apply FC in F as [_ F]. apply NC in N. apply NC in N. destruct (IH F N) as (e & W & S). eexists. split; [apply w_dash; [eapply char_token; eauto|eauto]|]. eapply char_dash_class; eauto. eapply cc_char_ok; eauto.
  - intros first a b c E F N. destruct (N a). left; auto.
  - intros first a ts c n c' _ IH E F N. destruct (N a). left; auto.
  - intros first ts c n _ IH F N. destruct (IH F N) as (e & W & S). exists e. split; auto. apply w_whole; auto.
  - intros first k a c E1 E F N. apply FC in F as [K1 _]. exists (XChar a). split; [apply w_char; eapply char_token; eauto|]. apply char_set_class; auto. eapply cc_char_ok; eauto.
  - intros c E F N. exists (XChar 45). split; [apply w_hyphen|]. apply char_set_class; auto. lia.
  - intros first a c E F N. destruct (N a). left; auto.
Qed.
End Brackets.

(** * C52 *)

(** A class without bytes stands for a set of characters made of its parts: a bracket closes what is
    between the brackets under case, if case is ignored, and '^' then takes the complement; the
    operators are union, intersection, difference and symmetric difference, grouped from the left.
    What is between brackets is not empty, and the class matches the encodings of its characters. *)
Theorem class_meaning I R o ts c n : icu_ok I -> icu_folds I R -> Forall tok_ok ts -> no_bytes ts -> charclass I o ts c n ->
  exists e, written Whole e ts /\
    (forall x, in_class (cs_cps c) x <-> (x < MAXCP)%N /\ mean I R o e x) /\
    (forall enc w, lang (enc_atom enc) (cset_node c) w <-> exists x, (x < MAXCP)%N /\ mean I R o e x /\ encodes enc (Z.of_N x) w) /\
    ((forall s, ts <> [TSet s]) -> exists x, (x < MAXCP)%N /\ mean I R o e x).
Proof.
  intros IO IF F N H.
  assert (X : exists e, written Whole e ts /\ is_class c (mean I R o e) /\ ((forall s, ts <> [TSet s]) -> exists x, (x < MAXCP)%N /\ mean I R o e x)).
  { destruct (classes_mean I R IO IF o) as (_ & CE & _). destruct H as [b0 ts c n c' H E|b0 ts c n c' H E|s v E].
    - inversion F as [|? ? _ F1]; subst. apply Forall_app in F1 as [F1 _]. assert (N1 : no_bytes ts) by (intros b K; apply (N b); right; apply in_or_app; auto).
      destruct (CE _ _ _ _ _ H F1 N1) as (e & W & S). destruct (finish_pos_spec I R IF o c _ c' S E) as (T & NE). exists (XPos e). split; [eapply w_pos; eauto|]. split; auto.
    - inversion F as [|? ? _ F1]; subst. inversion F1 as [|? ? _ F2]; subst. apply Forall_app in F2 as [F2 _]. assert (N1 : no_bytes ts) by (intros b K; apply (N b); right; right; apply in_or_app; auto).
      destruct (CE _ _ _ _ _ H F2 N1) as (e & W & S). destruct (finish_neg_spec I R IF o c _ c' S E) as (T & NE). exists (XNeg e). split; [eapply w_neg; eauto|]. split; auto.
    - exists (XNamed s). split; [constructor|]. split; [split; [apply (resolve_named I o s v IO E)|auto]|]. intros K. destruct (K s). auto. }
  destruct X as (e & W & ((C & S) & B & A) & NE). exists e. split; auto.
  assert (IN : forall x, in_class (cs_cps c) x <-> (x < MAXCP)%N /\ mean I R o e x).
  { intros x. destruct (EncUtf.ranges_spec _ (cs_cps c) C) as (_ & Pc & _). unfold in_class. rewrite <- Pc. split; [intros Q; pose proof (par_below _ x C Q) as L; split; auto; apply S; auto|intros (L & Q); apply S; auto]. }
  split; auto. split; auto. intros enc w. unfold cset_node. cbn [lang]. rewrite B, A. cbn [enc_atom].
  assert (NB : ~ exists b, w = [b] /\ has bs_empty b). { intros (b & _ & K). apply (has_tb bs_empty b) in K; [|apply empty_wf]. destruct K as (Hb & K). rewrite empty_tb in K by auto. discriminate. }
  split.
  - intros [(x & Hx & G)|K]; [|contradiction]. apply IN in Hx as (L & M). exists x. auto.
  - intros (x & L & M & G). left. exists x. split; auto. apply IN. auto.
Qed.
Print Assumptions class_meaning.

(** * Classes with bytes *)

(** `[^a\zFF]`, `[b[^a\zFF]]`, `[^[^a\zFF]]` and `[a\zFF]` *)
Definition not_text : list N := [91; 94; 97; 92; 122; 70; 70; 93]%N.
Definition or_text : list N := [91; 98; 91; 94; 97; 92; 122; 70; 70; 93; 93]%N.
Definition not_not_text : list N := [91; 94; 91; 94; 97; 92; 122; 70; 70; 93; 93]%N.
Definition both_text : list N := [91; 97; 92; 122; 70; 70; 93]%N.
Definition only_ff : bset := match bs_set1 bs_empty 255 true with Ok b => b | _ => [] end.
Example byte_classes :
  parse small_icu false false false not_text = Ok (PAtom (AClass [0; 97; 98; MAXCP]%N only_ff false), 3%nat) /\
  parse small_icu false false false or_text = Ok (PAtom (AClass [0; 97; 98; MAXCP]%N only_ff true), 4%nat) /\
  parse small_icu false false false not_not_text = Ok (PAtom (AClass [97; 98]%N only_ff false), 3%nat) /\
  parse small_icu false false false both_text = Ok (PAtom (AClass [97; 98]%N only_ff true), 3%nat).
Proof. repeat split; vm_compute; reflexivity. Qed.
Lemma only_ff_has : has only_ff 255.
Proof. vm_compute. reflexivity. Qed.

(** A union is not the union of its parts: `[b[^a\zFF]]` matches the byte FF, while neither `b` nor
    `[^a\zFF]` does, since only the first part says whether bytes are added or taken away. *)
Theorem class_union_bytes_refuted : exists text text1 text2 t t1 t2 n n1 n2 w,
  text1 = [98]%N /\ text = [91]%N ++ text1 ++ text2 ++ [93]%N /\
  parse small_icu false false false text = Ok (t, n) /\ parse small_icu false false false text1 = Ok (t1, n1) /\ parse small_icu false false false text2 = Ok (t2, n2) /\
  lang (enc_atom (EBase UTF8)) t w /\ ~ lang (enc_atom (EBase UTF8)) t1 w /\ ~ lang (enc_atom (EBase UTF8)) t2 w.
Proof.
  destruct byte_classes as (E1 & E2 & _). exists or_text, [98]%N, not_text. do 3 eexists. exists 4%nat, 2%nat, 3%nat, [255]%N. split; auto. split; [reflexivity|]. split; [exact E2|]. split; [vm_compute; reflexivity|]. split; [exact E1|]. cbn [lang enc_atom]. split; [|split].
  - right. exists 255%N. split; auto. apply only_ff_has.
  - intros H. apply encodes_iff in H; [|exact Logic.I]. destruct H as (H & _). discriminate H.
  - intros (_ & H). apply H. exists 255%N. split; auto. apply only_ff_has.
Qed.
Print Assumptions class_union_bytes_refuted.

(** Nor does a second negation take the first one back. *)
Theorem class_double_negation_refuted : exists text text' t t' n n' w,
  text = [91; 94]%N ++ ([91; 94]%N ++ text' ++ [93]%N) ++ [93]%N /\
  parse small_icu false false false text = Ok (t, n) /\ parse small_icu false false false ([91]%N ++ text' ++ [93]%N) = Ok (t', n') /\
  lang (enc_atom (EBase UTF8)) t' w /\ ~ lang (enc_atom (EBase UTF8)) t w.
Proof.
  destruct byte_classes as (_ & _ & E3 & E4). exists not_not_text, [97; 92; 122; 70; 70]%N. do 2 eexists. exists 3%nat, 3%nat, [255]%N. split; [reflexivity|]. split; [exact E3|]. split; [exact E4|]. cbn [lang enc_atom]. split.
  - right. exists 255%N. split; auto. apply only_ff_has.
  - intros (_ & H). apply H. exists 255%N. split; auto. apply only_ff_has.
Qed.
Print Assumptions class_double_negation_refuted.

(** * An example: `[b-d&&[^C]]` without regard to case *)

Definition cx_opts : opts := {| cased := false; ascii := true |}.
Definition cx_toks : list tok := [TP 91; TChar 98; TP 45; TChar 100; TAnd; TP 91; TP 94; TChar 67; TP 93; TP 93].
Definition cx_class : cset := {| cs_cps := [66; 67; 68; 69; 98; 99; 100; 101]%N; cs_bytes := bs_empty; cs_add := true |}.
Example cx_derived : charclass small_icu cx_opts cx_toks cx_class 2.
Proof.
  apply (cl_pos small_icu cx_opts false [TChar 98; TP 45; TChar 100; TAnd; TP 91; TP 94; TChar 67; TP 93] {| cs_cps := [98; 99; 100; 101]%N; cs_bytes := bs_empty; cs_add := true |}); [|vm_compute; reflexivity].
  apply (ce_op small_icu cx_opts true false false OAnd [TChar 98; TP 45; TChar 100] [TP 91; TP 94; TChar 67; TP 93] {| cs_cps := [98; 101]%N; cs_bytes := bs_empty; cs_add := true |} {| cs_cps := [0; 67; 68; 99; 100; MAXCP]%N; cs_bytes := bs_empty; cs_add := true |} _ 1 1); [| |discriminate|vm_compute; reflexivity].
  - apply ce_elem. eapply el_range; try reflexivity; vm_compute; reflexivity.
  - apply el_class. apply (cl_neg small_icu cx_opts true [TChar 67] {| cs_cps := [67; 68]%N; cs_bytes := bs_empty; cs_add := true |}); [|vm_compute; reflexivity]. apply ce_elem. eapply el_char; try reflexivity; vm_compute; reflexivity.
Qed.
Example cx_lexed : lex small_icu 12 false [91; 98; 45; 100; 38; 38; 91; 94; 67; 93; 93] = cx_toks.
Proof. vm_compute. reflexivity. Qed.
Example cx_meaning : exists e, written Whole e cx_toks /\ (forall x, in_class (cs_cps cx_class) x <-> (x < MAXCP)%N /\ mean small_icu eq cx_opts e x) /\ exists x, (x < MAXCP)%N /\ mean small_icu eq cx_opts e x.
Proof.
  destruct (class_meaning small_icu eq cx_opts cx_toks cx_class 2 small_icu_ok small_folds) as (e & W & M & _ & NE).
  - unfold cx_toks. repeat (constructor; [simpl; lia || exact Logic.I|]). constructor.
  - intros b H. unfold cx_toks in H. cbn in H. repeat (destruct H as [H|H]; [discriminate H|]). exact H.
  - exact cx_derived.
  - exists e. split; auto. split; auto. apply NE. intros s. discriminate.
Qed.
(** The expression is read as it looks: the letters b and d in both cases. *)
Example cx_expr : let e := XPos (XOp OAnd (XRange 98 100) (XNeg (XChar 67))) in written Whole e cx_toks /\
  forall x, (x < MAXCP)%N -> (mean small_icu eq cx_opts e x <-> In x [66; 68; 98; 100]%N).
Proof.
  split.
  - apply (w_pos false _ [TChar 98; TP 45; TChar 100; TAnd; TP 91; TP 94; TChar 67; TP 93]). apply (w_op true false false OAnd _ [TChar 98; TP 45; TChar 100] _ [TP 91; TP 94; TChar 67; TP 93]).
    + apply w_elem, w_range; unfold token_char; auto; lia.
    + apply w_whole. apply (w_neg true _ [TChar 67]). apply w_elem, w_char. left. auto.
    + discriminate.
  - intros x L. cbn [mean]. unfold closed, counts, variant, ascii_twin. cbn [cased ascii cx_opts In]. split.
    + intros (y & Ly & (A & B) & C). assert (y <> 99%N). { intros ->. apply B. exists 67%N. split; [unfold MAXCP; lia|]. split; auto. right. left. left. lia. } lia.
    + assert (NB : forall y, y <> 99%N -> y <> 67%N -> ~ exists z, (z < MAXCP)%N /\ z = Z.to_N 67 /\ (z = y \/ ((65 <= z < 91 /\ y = z + 32) \/ (97 <= z < 123 /\ y = z - 32)) \/ 128 <= z /\ z = y)%N) by (intros y H1 H2 (z & _ & -> & H); lia).
      intros [<-|[<-|[<-|[<-|[]]]]].
      * exists 98%N. split; [unfold MAXCP; lia|]. split; [split; [lia|apply NB; lia]|lia].
      * exists 100%N. split; [unfold MAXCP; lia|]. split; [split; [lia|apply NB; lia]|lia].
      * exists 98%N. split; [unfold MAXCP; lia|]. split; [split; [lia|apply NB; lia]|lia].
      * exists 100%N. split; [unfold MAXCP; lia|]. split; [split; [lia|apply NB; lia]|lia].
Qed.
