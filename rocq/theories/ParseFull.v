(** The parser finds every derivation of the grammar. *)
From Verif Require Import Base RangeSetModel ByteSetModel PatModel ParseModel ParseGrammar ParseRun.
Open Scope Z_scope.

Section Full.
Variable I : icu.

(** * Classes *)

Section Classes.
Variable o : opts.
Local Notation charclass := (charclass I o).
Local Notation cc_expr := (cc_expr I o).
Local Notation cc_elem := (cc_elem I o).
Local Notation p_class := (p_class I o).
Local Notation p_ops := (p_ops I o).
Local Notation p_elem := (p_elem I o).

Lemma class_starts ts c n : charclass ts c n -> exists k r, ts = k :: r /\ forall rest, starts_class (k :: rest) = true.
Proof. intros [b us x m y H E|b us x m y H E|s v E]; eexists; eexists; (split; [reflexivity|reflexivity]). Qed.
Lemma starts_not_char first k r : starts_class (k :: r) = true -> cc_char first k = None.
Proof. destruct k; cbn [starts_class cc_char]; try discriminate; auto. intros E. apply Z.eqb_eq in E. subst. destruct first; reflexivity. Qed.
Lemma char_not_starts first k a r : cc_char first k = Some a -> starts_class (k :: r) = false.
Proof. intros E. destruct (starts_class (k :: r)) eqn:S; auto. rewrite (starts_not_char first k r S) in E. discriminate. Qed.

Definition elem_head (first : bool) (k : tok) : Prop :=
  k <> TAnd /\ k <> TMinus /\ k <> TXor /\ (if first then k <> TP 94 else k <> TP 93).
Lemma char_head first k a : cc_char first k = Some a -> elem_head first k.
Proof. intros E. unfold elem_head. split; [|split; [|split]]; [intros ->; discriminate E..|]. destruct first; intros ->; discriminate E. Qed.
Lemma starts_head first k r : starts_class (k :: r) = true -> elem_head first k.
Proof. intros E. unfold elem_head. split; [|split; [|split]]; [intros ->; discriminate E..|]. destruct first; intros ->; discriminate E. Qed.
Lemma byte_head first a : elem_head first (TByte a).
Proof. unfold elem_head. split; [|split; [|split]]; try discriminate. destruct first; discriminate. Qed.
Lemma elem_starts first b ts c n : cc_elem first b ts c n -> exists k r, ts = k :: r /\ elem_head first k.
Proof.
  intros H. destruct H as [first k1 k2 a b c E1 E2 E|first k1 a ts c n c' E1 H E|first a b c E|first a ts c n c' H E|first ts c n H|first k a c E1 E|c E|first a c E]; try (eexists; eexists; split; [reflexivity|]; eauto using char_head, byte_head; fail).
  - destruct (class_starts _ _ _ H) as (k & r & -> & S). exists k, r. split; auto. apply (starts_head first k r), S.
  - exists (TP 45), []. split; auto. repeat split; discriminate.
Qed.

Definition class_full (ts : list tok) (c : cset) (n : nat) : Prop := forall f rest, (2 * length (ts ++ rest) + 1 <= f)%nat -> p_class f (ts ++ rest) = Ok (c, n, rest).
Definition elem_full (first b : bool) (ts : list tok) (c : cset) (n : nat) : Prop := forall f rest, (b = true -> hyphen_next rest = false) ->
  (2 * length (ts ++ rest) + 2 <= f)%nat -> p_elem f first (ts ++ rest) = Ok (c, n, rest).
Definition expr_full (pos b : bool) (ts : list tok) (c : cset) (n : nat) : Prop := (exists k r, ts = k :: r /\ elem_head pos k) /\
  forall f rest, (b = true -> hyphen_next rest = false) -> (2 * length (ts ++ rest) + 2 <= f)%nat ->
    exists x m mid f', p_elem f pos (ts ++ rest) = Ok (x, m, mid) /\ (2 * length rest + 3 <= f')%nat /\ p_ops f x m mid = p_ops f' c n rest.

Lemma ops_stop f c n rest : (1 <= f)%nat -> p_ops f c n (TP 93 :: rest) = Ok (c, n, TP 93 :: rest).
Proof. destruct f; [lia|reflexivity]. Qed.

Lemma class_all :
  (forall ts c n, charclass ts c n -> class_full ts c n) /\
  (forall pos b ts c n, cc_expr pos b ts c n -> expr_full pos b ts c n) /\
  (forall first b ts c n, cc_elem first b ts c n -> (exists k r, ts = k :: r /\ elem_head first k) /\ elem_full first b ts c n).
Proof.
  apply (class_mut I o class_full expr_full (fun first b ts c n => (exists k r, ts = k :: r /\ elem_head first k) /\ elem_full first b ts c n)).
  - intros b ts c n c' _ ((k & r & -> & (_ & _ & _ & HK)) & IH) E f rest L. destruct f as [|f]; [lia|]. cbn [app] in *. rewrite <- app_assoc in *. cbn [app length] in *.
    destruct (IH f (TP 93 :: rest)) as (x & m & mid & f' & E1 & L' & E2); [reflexivity|cbn [app length]; lia|]. rewrite ops_stop in E2 by lia. cbn [app] in E1.
    cbn [ParseModel.p_class]. change (negb (91 =? 91)) with false. cbv iota.
    assert (G : (' p <- p_elem f true (k :: r ++ TP 93 :: rest) ;; ' q <- p_ops f (fst (fst p)) (snd (fst p)) (snd p) ;; c0 <- finish_pos I o (fst (fst q)) ;;
      match snd q with TP e :: r2 => if e =? 93 then Ok (c0, snd (fst q), r2) else Throw | _ => Throw end) = Ok (c', n, rest)).
    { rewrite E1. cbn [bind fst snd]. rewrite E2. cbn [bind fst snd]. rewrite E. reflexivity. }
    destruct k; try exact G. destruct (Z.eqb_spec c0 94) as [->|]; [congruence|exact G].
  - intros b ts c n c' _ (_ & IH) E f rest L. destruct f as [|f]; [lia|]. cbn [app] in *. rewrite <- app_assoc in *. cbn [app length] in *.
    destruct (IH f (TP 93 :: rest)) as (x & m & mid & f' & E1 & L' & E2); [reflexivity|lia|]. rewrite ops_stop in E2 by lia.
    assert (G : (' p <- p_elem f false (ts ++ TP 93 :: rest) ;; ' q <- p_ops f (fst (fst p)) (snd (fst p)) (snd p) ;; c0 <- finish_neg I o (fst (fst q)) ;;
      match snd q with TP e :: r2 => if e =? 93 then Ok (c0, snd (fst q), r2) else Throw | _ => Throw end) = Ok (c', n, rest)).
    { rewrite E1. cbn [bind fst snd]. rewrite E2. cbn [bind fst snd]. rewrite E. reflexivity. }
    exact G.
  - intros s v E f rest L. destruct f as [|f]; [lia|]. cbn [app ParseModel.p_class]. rewrite E. reflexivity.
  - intros pos b ts c n H (HD & IH). split; auto. intros f rest HB L. exists c, n, rest, f. split; [apply IH; auto|]. split; auto. destruct HD as (k & r & -> & _). cbn [app length] in L. rewrite app_length in L. lia.
  - intros pos b1 b2 op ts us x y z n m _ ((k & r & -> & HK) & IH1) _ ((k2 & r2 & -> & (A1 & A2 & A3 & A4)) & IH2) HN E. split; [exists k, (r ++ op_toks op ++ k2 :: r2); auto|].
    intros f rest HB L. rewrite <- app_assoc in *. destruct (IH1 f ((op_toks op ++ k2 :: r2) ++ rest)) as (x' & m' & mid & f' & E1 & L' & E2); auto.
    { intros Hb. specialize (HN Hb). destruct op; exact HN. }
    exists x', m', mid. assert (L3 : (2 * length ((k2 :: r2) ++ rest) + 3 <= f')%nat) by (rewrite !app_length in *; lia). destruct f' as [|f']; [lia|].
    exists f'. split; auto. split; [cbn [app length] in L3; rewrite app_length in L3; lia|]. rewrite E2. rewrite <- app_assoc.
    assert (G : (' p <- p_elem f' false ((k2 :: r2) ++ rest) ;; w <- combine op x (fst (fst p)) ;; p_ops f' w (n + snd (fst p)) (snd p)) = p_ops f' z (n + m) rest).
    { rewrite IH2 by (auto; lia). cbn [bind fst snd]. rewrite E. reflexivity. }
    destruct op; cbn [op_toks app ParseModel.p_ops]; try exact G.
    destruct k2; try congruence; try exact G. destruct (Z.eqb_spec c 93) as [->|]; [congruence|exact G].
  - intros first k1 k2 a b c E1 E2 E. split; [eauto using char_head|]. intros f rest _ L. destruct f as [|f]; [cbn [app length] in L; lia|]. cbn [app ParseModel.p_elem]. rewrite E1. change (45 =? 45) with true. cbv iota. rewrite (char_not_starts _ _ _ _ E2), E2, E. reflexivity.
  - intros first k1 a ts c n c' E1 H IH E. split; [eauto using char_head|]. intros f rest _ L. destruct f as [|f]; [cbn [app length] in L; lia|]. cbn [app length ParseModel.p_elem] in *. rewrite E1. change (45 =? 45) with true. cbv iota.
    destruct (class_starts _ _ _ H) as (k & r & -> & S). cbn [app] in *. rewrite S. pose proof (IH f rest) as IH'. cbn [app] in IH'.
    assert (G : (' p <- p_class f (k :: r ++ rest) ;; c0 <- char_dash a (fst (fst p)) ;; Ok (c0, snd (fst p), snd p)) = Ok (c', n, rest)) by (rewrite IH' by lia; cbn [bind fst snd]; rewrite E; reflexivity).
    exact G.
  - intros first a b c E. split; [eauto using byte_head|]. intros f rest _ L. destruct f as [|f]; [cbn [app length] in L; lia|]. cbn [app ParseModel.p_elem cc_char]. cbn [starts_class]. change (45 =? 45) with true. cbv iota. rewrite E. reflexivity.
  - intros first a ts c n c' H IH E. split; [eauto using byte_head|]. intros f rest _ L. destruct f as [|f]; [cbn [app length] in L; lia|]. cbn [app length ParseModel.p_elem cc_char] in *. change (starts_class (TByte a :: TP 45 :: ts ++ rest)) with false. change (45 =? 45) with true. cbv iota.
    destruct (class_starts _ _ _ H) as (k & r & -> & S). cbn [app] in *. rewrite S. pose proof (IH f rest) as IH'. cbn [app] in IH'.
    assert (G : (' p <- p_class f (k :: r ++ rest) ;; c0 <- byte_dash a (fst (fst p)) ;; Ok (c0, snd (fst p), snd p)) = Ok (c', n, rest)) by (rewrite IH' by lia; cbn [bind fst snd]; rewrite E; reflexivity).
    exact G.
  - intros first ts c n H IH. destruct (class_starts _ _ _ H) as (k & r & -> & S). split; [exists k, r; split; auto; apply (starts_head first k r), S|]. intros f rest _ L. destruct f as [|f]; [cbn [app length] in L; lia|]. pose proof (IH f rest) as IH'. cbn [app length ParseModel.p_elem] in *. rewrite (starts_not_char first k [] (S [])), S. apply IH'. lia.
  - intros first k a c E1 E. split; [eauto using char_head|]. intros f rest HB L. destruct f as [|f]; [cbn [app length] in L; lia|]. cbn [app ParseModel.p_elem]. rewrite E1, E. specialize (HB eq_refl). destruct rest as [|[d| | | | | | | | | | | | |] r]; try reflexivity. cbn [hyphen_next] in HB. rewrite HB. reflexivity.
  - intros c E. split; [exists (TP 45), []; split; auto; repeat split; discriminate|]. intros f rest _ L. destruct f as [|f]; [cbn [app length] in L; lia|]. cbn [app ParseModel.p_elem]. cbn -[char_set]. rewrite E. reflexivity.
  - intros first a c E. split; [eauto using byte_head|]. intros f rest HB L. destruct f as [|f]; [cbn [app length] in L; lia|]. cbn [app ParseModel.p_elem cc_char starts_class]. rewrite E. specialize (HB eq_refl). destruct rest as [|[d| | | | | | | | | | | | |] r]; try reflexivity. cbn [hyphen_next] in HB. rewrite HB. reflexivity.
Qed.
End Classes.

(** * The parts of patterns *)

Lemma number_full ts v : number ts v -> forall rest, p_number (ts ++ rest) = p_digits v rest.
Proof.
  induction 1 as [d|ts v d N IH L]; intros rest; [reflexivity|]. rewrite <- app_assoc, IH. cbn [app p_digits]. apply Z.leb_le in L. rewrite L. reflexivity.
Qed.
Lemma number_starts ts v : number ts v -> exists d r, ts = TDigit d :: r.
Proof. induction 1 as [d|ts v d N (x & r & ->) L]; [eauto|]. exists x, (r ++ [TDigit d]). auto. Qed.

Lemma quant_full us mn mx m rest : quant us mn mx m -> p_quant (us ++ rest) = Ok (Some (mn, mx, m), rest).
Proof.
  intros [| | |ts v H|ts v H|ts v vs w H G L]; try reflexivity; cbn [app p_quant]; rewrite <- app_assoc; cbn [app];
    (assert (Q : forall x r, p_digits v (TP x :: r) = Ok (v, TP x :: r)) by reflexivity); rewrite (number_full _ _ H), Q; try reflexivity.
  cbn -[p_number Z.leb]. rewrite <- app_assoc. cbn [app]. pose proof (number_full _ _ G (TP 125 :: rest)) as E. destruct (number_starts _ _ G) as (d & r & ->). cbn [app] in *. rewrite E. cbn -[Z.leb]. apply Z.leb_le in L. rewrite L. reflexivity.
Qed.

Lemma span_full on ts o o' rest : turns on ts o = Some o' -> (forall c r, rest = TP c :: r -> c <> 97 /\ c <> 105) -> span_turn (ts ++ rest) = (ts, rest).
Proof.
  revert o. induction ts as [|k ts IH]; intros o E HR; cbn [app turns] in *.
  - destruct rest as [|[c| | | | | | | | | | | | |] r]; try reflexivity. cbn [span_turn]. destruct (HR c r eq_refl) as (N1 & N2). apply Z.eqb_neq in N1, N2. rewrite N1, N2. reflexivity.
  - destruct (turn on k o) as [o1|] eqn:ET; [|discriminate]. destruct k as [c| | | | | | | | | | | | |]; try discriminate ET. cbn [turn] in ET. cbn [span_turn]. rewrite (IH o1 E HR). destruct (c =? 97); [reflexivity|]. destruct (c =? 105); [reflexivity|discriminate].
Qed.
Lemma switch_full o ts o' rest : switch o ts o' -> p_switch o (ts ++ rest) = Some (o', rest).
Proof.
  assert (X : forall x r, x <> 97 -> x <> 105 -> forall c r', TP x :: r = TP c :: r' -> c <> 97 /\ c <> 105) by (intros x r N1 N2 c r' E; injection E as <- _; auto).
  intros [us o1 NE E|us o1 NE E|us o1 vs o2 NE E NE' E']; cbn [app p_switch]; change ((40 =? 40) && (63 =? 63))%bool with true; cbv iota; rewrite <- ?app_assoc; cbn [app].
  - rewrite (span_full true us o o1) by (auto; apply X; lia). rewrite E. change (41 =? 41) with true. cbv iota. destruct us; [congruence|reflexivity].
  - cbn [span_turn]. change ((45 =? 97) || (45 =? 105))%bool with false. cbv iota. change (turns true [] o) with (Some o). cbv iota. change (45 =? 41) with false. change (45 =? 45) with true. cbv iota. rewrite (span_full false us o o1) by (auto; apply X; lia). destruct us; [congruence|]. rewrite E. reflexivity.
  - rewrite (span_full true us o o1) by (auto; apply X; lia). rewrite E. change (45 =? 41) with false. change (45 =? 45) with true. cbv iota. rewrite <- app_assoc. cbn [app]. rewrite (span_full false vs o1 o2) by (auto; apply X; lia). destruct vs; [congruence|]. rewrite E'. reflexivity.
Qed.
Lemma switch_starts o ts o' : switch o ts o' -> exists r, ts = TP 40 :: TP 63 :: r.
Proof. intros [us o1 NE E|us o1 NE E|us o1 vs o2 NE E NE' E']; eauto. Qed.
Lemma look_full k r : (1 <= k <= 4)%N -> look (look_toks k ++ r) = Some (k, r).
Proof. intros L. assert (K : k = 1%N \/ k = 2%N \/ k = 3%N \/ k = 4%N) by lia. destruct K as [->|[->|[->| ->]]]; reflexivity. Qed.
Lemma look_no_switch o k r : (1 <= k <= 4)%N -> p_switch o (TP 40 :: TP 63 :: look_toks k ++ r) = None.
Proof. intros L. assert (K : k = 1%N \/ k = 2%N \/ k = 3%N \/ k = 4%N) by lia. destruct K as [->|[->|[->| ->]]]; reflexivity. Qed.

(** Tokens an atom may begin with *)
Definition atom_head (k : tok) : Prop := k <> TKill /\ forall c, k = TP c -> ~ In c [41; 42; 43; 63; 124].
Definition no_switch (ts : list tok) : Prop := forall o rest, p_switch o (ts ++ rest) = None.
Definition begins (ts : list tok) : Prop := (exists k r, ts = k :: r /\ atom_head k) /\ no_switch ts.
Definition begins_alt (ts : list tok) : Prop := exists k r, ts = k :: r /\ k <> TP 63.

Lemma begins_app a b : begins a -> begins (a ++ b).
Proof. intros ((k & r & -> & H) & N). split; [exists k, (r ++ b); auto|]. intros o rest. rewrite <- app_assoc. apply N. Qed.
Lemma head_63 k : atom_head k -> k <> TP 63.
Proof. intros (_ & H) E. apply (H 63 E). simpl. auto. Qed.
Lemma simple_head o k x : simple_atom I o k = Some x -> atom_head k /\ k <> TP 40 /\ forall r, starts_class (k :: r) = false.
Proof.
  intros E. split; [split|split].
  - intros ->. discriminate E.
  - intros c -> H. cbn [In] in H. destruct H as [<-|[<-|[<-|[<-|[<-|[]]]]]]; discriminate E.
  - intros ->. discriminate E.
  - intros r. destruct k; try reflexivity; [|discriminate E]. cbn [starts_class]. destruct (Z.eqb_spec c 91) as [->|]; [discriminate E|reflexivity].
Qed.

Lemma all_begin :
  (forall o ts o' t n, alt I o ts o' t n -> begins_alt ts) /\
  (forall b o ts o' t n, concat I b o ts o' t n -> begins ts) /\
  (forall b o ts o' t n, rep I b o ts o' t n -> begins ts) /\
  (forall o ts o' t n, patom I o ts o' t n -> begins ts).
Proof.
  apply (alt_mut I (fun o ts o' t n => begins_alt ts) (fun b o ts o' t n => begins ts) (fun b o ts o' t n => begins ts) (fun o ts o' t n => begins ts)); intros; auto using begins_app.
  - destruct H0 as ((k & r & -> & K) & _). exists k, r. auto using head_63.
  - destruct H0 as (k & r & -> & K). exists k, (r ++ TP 124 :: us). auto.
  - destruct (switch_starts _ _ _ H) as (r & ->). exists (TP 40), ((TP 63 :: r) ++ us). split; auto. discriminate.
  - destruct H0 as (k & r & -> & K). split.
    + exists (TP 40), ((k :: r) ++ [TP 41]). split; auto. split; [discriminate|]. intros c E. injection E as <-. simpl. lia.
    + intros o1 rest. cbn [app p_switch]. destruct k as [c| | | | | | | | | | | | |]; try reflexivity. destruct (Z.eqb_spec c 63) as [->|]; [congruence|]. rewrite andb_false_r. reflexivity.
  - split.
    + eexists (TP 40), _. split; [reflexivity|]. split; [discriminate|]. intros c E. injection E as <-. simpl. lia.
    + intros o1 rest. cbn [app]. rewrite <- app_assoc. apply look_no_switch. auto.
  - destruct (simple_head _ _ _ H) as (A & B & _). split; [exists k, []; auto|]. intros o1 rest. cbn [app p_switch]. destruct k as [c| | | | | | | | | | | | |]; try reflexivity. destruct rest as [|[d| | | | | | | | | | | | |] r]; try reflexivity. destruct (Z.eqb_spec c 40) as [->|]; [congruence|reflexivity].
  - destruct H as [b us x m y H E|b us x m y H E|s v E]; (split; [eexists; eexists; split; [reflexivity|]; split; [discriminate|]; intros z Ez; try discriminate Ez; injection Ez as <-; simpl; lia|]); intros o1 rest; cbn [app p_switch]; try reflexivity.
    destruct (us ++ [TP 93]) as [|[d| | | | | | | | | | | | |] r]; try reflexivity. cbn [app]. destruct rest as [|[d| | | | | | | | | | | | |] r]; reflexivity.
Qed.

(** What may come after: no operator that would still belong to the last part *)
Definition after (b : bool) (rest : list tok) : Prop := forall c r, rest = TP c :: r -> c <> 42 /\ c <> 43 /\ c <> 63 /\ (b = true -> c <> 123).
Definition stops (rest : list tok) : Prop := rest = [] \/ (exists r, rest = TP 124 :: r) \/ exists r, rest = TP 41 :: r.
Lemma stops_after b rest : stops rest -> after b rest.
Proof. intros [->|[(r & ->)|(r & ->)]] c q E; [discriminate|injection E as <- _; lia..]. Qed.
Lemma begins_after b ts rest : begins ts -> (b = true -> brace_next ts = false) -> after b (ts ++ rest).
Proof.
  intros ((k & r & -> & (_ & H)) & _) HB c q E. injection E as -> _. specialize (H c eq_refl). cbn [In] in H. cbn [brace_next] in HB. split; [lia|]. split; [lia|]. split; [lia|]. intros Hb. specialize (HB Hb). apply Z.eqb_neq in HB. exact HB.
Qed.

Definition alt_full (o : opts) (ts : list tok) (o' : opts) (t : pnode) (n : nat) : Prop := forall f rest, stops rest -> (6 * length (ts ++ rest) + 5 <= f)%nat ->
  exists f', (6 * length rest + 5 <= f')%nat /\ p_alt I f o (ts ++ rest) = p_alts I f' o' t n rest.
Definition concat_full (b : bool) (o : opts) (ts : list tok) (o' : opts) (t : pnode) (n : nat) : Prop := forall f rest, after b rest -> (6 * length (ts ++ rest) + 3 <= f)%nat ->
  exists o1 u m mid f', p_rep I f o (ts ++ rest) = Ok (o1, u, m, mid) /\ (6 * length rest + 4 <= f')%nat /\ p_concats I f o1 u m mid = p_concats I f' o' t n rest.
Definition rep_full (b : bool) (o : opts) (ts : list tok) (o' : opts) (t : pnode) (n : nat) : Prop := forall f rest, after b rest -> (6 * length (ts ++ rest) + 2 <= f)%nat ->
  p_rep I f o (ts ++ rest) = Ok (o', t, n, rest).
Definition atom_full (o : opts) (ts : list tok) (o' : opts) (t : pnode) (n : nat) : Prop := forall f rest, (6 * length (ts ++ rest) + 1 <= f)%nat ->
  p_atom I f o (ts ++ rest) = Ok (o', t, n, rest).

Lemma concats_stop f o t n rest : stops rest -> (1 <= f)%nat -> p_concats I f o t n rest = Ok (o, t, n, rest).
Proof. intros H L. destruct f; [lia|]. destruct H as [->|[(r & ->)|(r & ->)]]; reflexivity. Qed.
Lemma alts_stop f o t n rest : (rest = [] \/ exists r, rest = TP 41 :: r) -> (1 <= f)%nat -> p_alts I f o t n rest = Ok (o, t, n, rest).
Proof. intros H L. destruct f; [lia|]. destruct H as [->|(r & ->)]; reflexivity. Qed.
Lemma concat_whole b o ts o' t n f rest : concat_full b o ts o' t n -> stops rest -> (6 * length (ts ++ rest) + 4 <= f)%nat -> p_concat I f o (ts ++ rest) = Ok (o', t, n, rest).
Proof.
  intros H S L. destruct f as [|f]; [lia|]. destruct (H f rest (stops_after b rest S) ltac:(lia)) as (o1 & u & m & mid & f' & E1 & L' & E2). rewrite (concats_stop f' o' t n rest) in E2 by (auto; lia).
  assert (G : (' (o1, t, n, r) <- p_rep I f o (ts ++ rest) ;; p_concats I f o1 t n r) = Ok (o', t, n, rest)) by (rewrite E1; exact E2). exact G.
Qed.

Lemma pattern_all :
  (forall o ts o' t n, alt I o ts o' t n -> alt_full o ts o' t n) /\
  (forall b o ts o' t n, concat I b o ts o' t n -> concat_full b o ts o' t n) /\
  (forall b o ts o' t n, rep I b o ts o' t n -> rep_full b o ts o' t n) /\
  (forall o ts o' t n, patom I o ts o' t n -> atom_full o ts o' t n).
Proof.
  destruct all_begin as (BA & BC & BR & BT).
  assert (LEN : forall ts : list tok, begins ts -> (1 <= length ts)%nat) by (intros ts ((k & r & -> & _) & _); simpl; lia).
  apply (alt_mut I alt_full concat_full rep_full atom_full).
  - intros b o ts o' t n H IH f rest S L. apply BC in H. destruct f as [|f]; [lia|]. exists f. split; [apply LEN in H; rewrite app_length in L; lia|].
    assert (G : match p_switch o (ts ++ rest) with Some (o1, r) => p_alt I f o1 r | None => ' (o1, t, n, r) <- p_concat I f o (ts ++ rest) ;; p_alts I f o1 t n r end = p_alts I f o' t n rest).
    { rewrite (proj2 H o rest); rewrite (concat_whole b o ts o' t n f rest IH S) by lia. reflexivity. }
    exact G.
  - intros b o ts o1 t n us o2 u m _ IH1 H2 IH2 f rest S L. apply BC in H2. apply LEN in H2. rewrite <- app_assoc in *. cbn [app] in *.
    destruct (IH1 f (TP 124 :: us ++ rest)) as (f' & L' & E); [right; left; eauto|auto|]. destruct f' as [|f']; [lia|]. cbn [length] in L'. exists f'. split; [rewrite app_length in L'; lia|]. rewrite E.
    assert (G : (' (o3, v, k, r1) <- p_concat I f' o1 (us ++ rest) ;; p_alts I f' o3 (PAlt t v) (n + k + 1) r1) = p_alts I f' o2 (PAlt t u) (n + m + 1) rest).
    { rewrite (concat_whole b o1 us o2 u m f' rest IH2 S) by lia. reflexivity. }
    exact G.
  - intros o ts o1 us o2 t n SW _ IH f rest S L. pose proof (switch_starts _ _ _ SW) as (r & Er). rewrite <- app_assoc in *. destruct f as [|f]; [lia|].
    destruct (IH f rest S) as (f' & L' & E); [rewrite Er in L; cbn [app length] in L; rewrite app_length in L; lia|]. exists f'. split; auto.
    assert (G : match p_switch o (ts ++ us ++ rest) with Some (o1, r) => p_alt I f o1 r | None => ' (o1, t, n, r) <- p_concat I f o (ts ++ us ++ rest) ;; p_alts I f o1 t n r end = p_alts I f' o2 t n rest).
    { rewrite (switch_full _ _ _ _ SW). exact E. }
    exact G.
  - intros b o ts o' t n H IH f rest A L. exists o', t, n, rest, f. split; [apply IH; auto; lia|]. split; auto. apply BR, LEN in H. rewrite app_length in L. lia.
  - intros b1 b2 o ts o1 t n us o2 u m _ IH1 H2 IH2 HB f rest A L. apply BR in H2. rewrite <- app_assoc in *.
    destruct (IH1 f (us ++ rest)) as (o3 & t3 & n3 & mid & f' & E1 & L' & E2); [apply begins_after; auto|auto|]. exists o3, t3, n3, mid. destruct f' as [|f']; [lia|]. exists f'. split; auto.
    split; [apply LEN in H2; rewrite app_length in L'; lia|]. rewrite E2.
    assert (G : match p_switch o1 (us ++ rest) with Some (o1, r) => p_concats I f' o1 t n r | None => ' (o1, u, m, r) <- p_rep I f' o1 (us ++ rest) ;; p_concats I f' o1 (PCat t u) (n + m + 1) r end = p_concats I f' o2 (PCat t u) (n + m + 1) rest).
    { rewrite (proj2 H2 o1 rest), IH2 by (auto; lia). reflexivity. }
    destruct H2 as ((k & r & -> & (K1 & K2)) & _). cbn [app] in *. destruct k as [c| | | | | | | | | | | | |]; try congruence; try exact G. specialize (K2 c eq_refl). cbn [In] in K2. cbn [p_concats].
    destruct (Z.eqb_spec c 124); [lia|]. destruct (Z.eqb_spec c 41); [lia|]. exact G.
  - intros b o ts o1 t n _ IH f rest A L. rewrite <- app_assoc in *. cbn [app] in *. destruct (IH f (TKill :: rest)) as (o3 & t3 & n3 & mid & f' & E1 & L' & E2); [intros c r E; discriminate E|auto|]. exists o3, t3, n3, mid. destruct f' as [|f']; [lia|]. exists f'. split; auto.
    split; [cbn [length] in L'; lia|]. rewrite E2. reflexivity.
  - intros b o ts o1 t n us o2 _ IH SW f rest A L. rewrite <- app_assoc in *. destruct (switch_starts _ _ _ SW) as (r & Er).
    destruct (IH f (us ++ rest)) as (o3 & t3 & n3 & mid & f' & E1 & L' & E2); [rewrite Er; intros c q E; injection E as <- _; lia|auto|]. exists o3, t3, n3, mid. destruct f' as [|f']; [lia|]. exists f'. split; auto.
    split; [rewrite Er in L'; cbn [app length] in L'; rewrite app_length in L'; lia|]. rewrite E2.
    assert (G : match p_switch o1 (us ++ rest) with Some (o1, r) => p_concats I f' o1 t n r | None => ' (o1, u, m, r) <- p_rep I f' o1 (us ++ rest) ;; p_concats I f' o1 (PCat t u) (n + m + 1) r end = p_concats I f' o2 t n rest).
    { rewrite (switch_full _ _ _ _ SW). reflexivity. }
    rewrite Er in *. exact G.
  - intros o ts o' t n _ IH f rest A L. destruct f as [|f]; [lia|].
    assert (Q : p_quant rest = Ok (None, rest)).
    { destruct rest as [|[c| | | | | | | | | | | | |] r]; try reflexivity. destruct (A c r eq_refl) as (N1 & N2 & N3 & N4). specialize (N4 eq_refl). apply Z.eqb_neq in N1, N2, N3, N4. cbn [p_quant]. rewrite N1, N2, N3, N4. reflexivity. }
    assert (G : (' (o1, t, n, r) <- p_atom I f o (ts ++ rest) ;; ' q <- p_quant r ;; match fst q with None => Ok (o1, t, n, r) | Some (mn, mx, m) =>
      match snd q with TP c :: r1 => if c =? 63 then Ok (o1, PRep false t mn mx, (n + m + 1)%nat, r1) else Ok (o1, PRep true t mn mx, (n + m + 1)%nat, snd q) | _ => Ok (o1, PRep true t mn mx, (n + m + 1)%nat, snd q) end end) = Ok (o', t, n, rest)).
    { rewrite IH by lia. cbn [bind]. rewrite Q. reflexivity. }
    exact G.
  - intros o ts o' t n us mn mx m _ IH HQ f rest A L. rewrite <- app_assoc in *. destruct f as [|f]; [lia|].
    assert (G : (' (o1, t, n, r) <- p_atom I f o (ts ++ us ++ rest) ;; ' q <- p_quant r ;; match fst q with None => Ok (o1, t, n, r) | Some (mn, mx, m) =>
      match snd q with TP c :: r1 => if c =? 63 then Ok (o1, PRep false t mn mx, (n + m + 1)%nat, r1) else Ok (o1, PRep true t mn mx, (n + m + 1)%nat, snd q) | _ => Ok (o1, PRep true t mn mx, (n + m + 1)%nat, snd q) end end) = Ok (o', PRep true t mn mx, (n + m + 1)%nat, rest)).
    { rewrite IH by lia. cbn [bind]. rewrite (quant_full _ _ _ _ _ HQ). cbn [bind fst snd]. destruct rest as [|[c| | | | | | | | | | | | |] r]; try reflexivity. destruct (A c r eq_refl) as (_ & _ & N3 & _). apply Z.eqb_neq in N3. rewrite N3. reflexivity. }
    exact G.
  - intros o ts o' t n us mn mx m _ IH HQ f rest A L. rewrite <- !app_assoc in *. cbn [app] in *. destruct f as [|f]; [lia|].
    assert (G : (' (o1, t, n, r) <- p_atom I f o (ts ++ us ++ TP 63 :: rest) ;; ' q <- p_quant r ;; match fst q with None => Ok (o1, t, n, r) | Some (mn, mx, m) =>
      match snd q with TP c :: r1 => if c =? 63 then Ok (o1, PRep false t mn mx, (n + m + 1)%nat, r1) else Ok (o1, PRep true t mn mx, (n + m + 1)%nat, snd q) | _ => Ok (o1, PRep true t mn mx, (n + m + 1)%nat, snd q) end end) = Ok (o', PRep false t mn mx, (n + m + 1)%nat, rest)).
    { rewrite IH by lia. cbn [bind]. rewrite (quant_full _ _ _ _ _ HQ). reflexivity. }
    exact G.
  - intros o ts o' t n H IH f rest L. destruct f as [|f]; [lia|]. cbn [app length] in *. rewrite <- app_assoc in *. cbn [app] in *.
    destruct (IH f (TP 41 :: rest)) as (f' & L' & E); [right; right; eauto|lia|]. rewrite alts_stop in E by (eauto; lia).
    assert (G : (' (o1, t, n, r3) <- p_alt I f o (ts ++ TP 41 :: rest) ;; match r3 with TP e :: r4 => if e =? 41 then Ok (o, t, n, r4) else Throw | _ => Throw end) = Ok (o, t, n, rest)) by (rewrite E; reflexivity).
    apply BA in H. destruct H as (k & r & -> & K). cbn [app] in *. destruct k as [c| | | | | | | | | | | | |]; try exact G.
    assert (X : (c =? 63) = false) by (apply Z.eqb_neq; congruence).
    assert (G2 : (if c =? 63 then match look (r ++ TP 41 :: rest) with None => Throw | Some (kind, r2) => ' (o1, t, n, r3) <- p_alt I f o r2 ;; match r3 with TP e :: r4 => if e =? 41 then Ok (o1, PLook kind t, (n + 1)%nat, r4) else Throw | _ => Throw end end
      else ' (o1, t, n, r3) <- p_alt I f o (TP c :: r ++ TP 41 :: rest) ;; match r3 with TP e :: r4 => if e =? 41 then Ok (o, t, n, r4) else Throw | _ => Throw end) = Ok (o, t, n, rest)) by (rewrite X; exact G).
    exact G2.
  - intros o k ts o' t n K _ IH f rest L. destruct f as [|f]; [lia|]. cbn [app length] in *. rewrite <- !app_assoc in *. cbn [app] in *.
    destruct (IH f (TP 41 :: rest)) as (f' & L' & E); [right; right; eauto|rewrite !app_length in *; lia|]. rewrite alts_stop in E by (eauto; lia).
    assert (G : match look (look_toks k ++ ts ++ TP 41 :: rest) with None => Throw | Some (kind, r2) => ' (o1, t, n, r3) <- p_alt I f o r2 ;; match r3 with TP e :: r4 => if e =? 41 then Ok (o1, PLook kind t, (n + 1)%nat, r4) else Throw | _ => Throw end end = Ok (o', PLook k t, (n + 1)%nat, rest)) by (rewrite look_full, E by auto; reflexivity).
    exact G.
  - intros o k t n E f rest L. destruct (simple_head _ _ _ E) as (_ & _ & S). destruct f as [|f]; [lia|]. cbn [app p_atom]. rewrite S, E. reflexivity.
  - intros o ts c n H f rest L. destruct f as [|f]; [lia|]. cbn [p_atom]. destruct (class_starts _ _ _ _ H) as (k & r & E & S). rewrite (proj1 (class_all o) ts c n H) by lia. rewrite E. cbn [app]. rewrite S. reflexivity.
Qed.

(** With enough steps the parser returns what the grammar derives. *)
Lemma alt_run o ts o' t n f : alt I o ts o' t n -> (6 * length ts + 5 <= f)%nat -> p_alt I f o ts = Ok (o', t, n, []).
Proof.
  intros H L. destruct (proj1 pattern_all o ts o' t n H f []) as (f' & L' & E); [left; auto|rewrite app_nil_r; auto|]. rewrite app_nil_r in E. rewrite E. apply alts_stop; auto. simpl in L'. lia.
Qed.
End Full.
