(** The parser by recursive descent: it ends, it derives what the grammar derives, and only a number
    that is too large leads to undefined behaviour. *)
From Verif Require Import Base RangeSetModel RangeSetProofs ByteSetModel ByteSetProofs UtfModel EscModel PatModel PatSpec EncModel EncProofs ParseModel ParseSets ParseGrammar.
Open Scope Z_scope.

Definition outcome {A} (bad : Prop) (P : A -> Prop) (r : res A) : Prop :=
  match r with Ok a => P a | UB => bad | Fuel => False | Throw => True end.

Lemma outcome_bind {A B} bad (P : A -> Prop) (Q : B -> Prop) r f : outcome bad P r -> (forall a, P a -> outcome bad Q (f a)) -> outcome bad Q (bind r f).
Proof. destruct r; simpl; auto; contradiction. Qed.
Lemma outcome_weaken {A} (bad bad' : Prop) (P Q : A -> Prop) r : outcome bad P r -> (bad -> bad') -> (forall a, P a -> Q a) -> outcome bad' Q r.
Proof. destruct r; simpl; auto. Qed.
Lemma safe_outcome {A} bad (P : A -> Prop) r : safe P r -> outcome bad P r.
Proof. destruct r; simpl; auto; contradiction. Qed.

Lemma safe_bind_eq {A B} (P : A -> Prop) (Q : B -> Prop) r f : safe P r -> (forall a, r = Ok a -> P a -> safe Q (f a)) -> safe Q (bind r f).
Proof. destruct r; simpl; auto; contradiction. Qed.

Lemma bind_assoc_if {A B} (b : bool) (x : A) (f : A -> res B) : bind (if b then Ok x else Throw) f = if b then f x else Throw.
Proof. destruct b; auto. Qed.

Section Run.
Variable I : icu.
Hypothesis IO : icu_ok I.

Section Class.
Variable o : opts.

Notation charclass := (charclass I o).
Notation cc_expr := (cc_expr I o).
Notation cc_elem := (cc_elem I o).

Definition class_post (Q : list tok -> cset -> nat -> Prop) (ts : list tok) (p : cset * nat * list tok) : Prop :=
  exists pre, ts = pre ++ snd p /\ Q pre (fst (fst p)) (snd (fst p)).

Lemma class_cset ts c n : charclass ts c n -> Forall tok_ok ts -> cset_ok c.
Proof. intros H. apply (proj1 (class_invs I IO o) ts c n H). Qed.
Lemma expr_cset p b ts c n : cc_expr p b ts c n -> Forall tok_ok ts -> cset_ok c.
Proof. intros H. apply (proj1 (proj2 (class_invs I IO o)) p b ts c n H). Qed.
Lemma elem_cset p b ts c n : cc_elem p b ts c n -> Forall tok_ok ts -> cset_ok c.
Proof. intros H. apply (proj2 (proj2 (class_invs I IO o)) p b ts c n H). Qed.
Lemma elem_ne p b ts c n : cc_elem p b ts c n -> ts <> [].
Proof. intros H. apply (proj2 (proj2 (class_invs I IO o)) p b ts c n H). Qed.
Definition elem_post (first : bool) (ts : list tok) (p : cset * nat * list tok) : Prop :=
  exists b pre, ts = pre ++ snd p /\ cc_elem first b pre (fst (fst p)) (snd (fst p)) /\ (b = true -> hyphen_next (snd p) = false).
Lemma class_ne ts c n : charclass ts c n -> ts <> [].
Proof. intros H. apply (proj1 (class_invs I IO o) ts c n H). Qed.

Lemma ne_len {A} (l : list A) : l <> [] -> (1 <= length l)%nat.
Proof. destruct l; simpl; [congruence|lia]. Qed.

Lemma p_class_ok : forall f,
  (forall ts, Forall tok_ok ts -> (2 * length ts + 1 <= f)%nat -> safe (class_post charclass ts) (p_class I o f ts)) /\
  (forall pos b pre x n ts, cc_expr pos b pre x n -> (b = true -> hyphen_next ts = false) -> Forall tok_ok pre -> Forall tok_ok ts -> (2 * length ts + 3 <= f)%nat ->
     safe (class_post (fun pre' c n => exists b', cc_expr pos b' (pre ++ pre') c n) ts) (p_ops I o f x n ts)) /\
  (forall first ts, Forall tok_ok ts -> (2 * length ts + 2 <= f)%nat -> safe (elem_post first ts) (p_elem I o f first ts)).
Proof.
  induction f as [|f (IHc & IHo & IHe)]; [split; [|split]; intros; lia|].
  assert (BODY : forall pos finish r (mk : list tok -> list tok), Forall tok_ok r -> (2 * length r + 2 <= f)%nat ->
    (forall c, cset_ok c -> safe cset_ok (finish c)) ->
    (forall b ts c n c', cc_expr pos b ts c n -> finish c = Ok c' -> charclass (mk ts ++ [TP 93]) c' n) ->
    (forall a b, mk (a ++ b) = mk a ++ b) ->
    safe (class_post charclass (mk r))
      (' p <- p_elem I o f pos r ;;
       ' q <- p_ops I o f (fst (fst p)) (snd (fst p)) (snd p) ;;
       c' <- finish (fst (fst q)) ;;
       match snd q with TP e :: r2 => if e =? 93 then Ok (c', snd (fst q), r2) else Throw | _ => Throw end)).
  { intros pos finish r mk F L FIN MK APP. eapply safe_bind; [apply IHe; auto|]. intros [[c n] r1] (b & pre & E & HE & HB). cbn [fst snd] in *. subst r.
    pose proof (ne_len _ (elem_ne _ _ _ _ _ HE)) as LP. rewrite app_length in L. apply Forall_app in F as [F1 F2].
    eapply safe_bind; [apply (IHo pos b pre c n r1); auto; [apply ce_elem; auto|lia]|]. intros [[c2 n2] r2] (pre2 & E2 & b2 & HE2). cbn [fst snd] in *. subst r1.
    apply Forall_app in F2 as [F2 F3]. eapply safe_bind_eq.
    - apply (FIN c2). eapply expr_cset; eauto. apply Forall_app; auto.
    - intros c' EF _. destruct r2 as [|[e| | | | | | | | | | | | |] r2]; simpl; auto. destruct (Z.eqb_spec e 93) as [->|]; simpl; auto.
      exists (mk (pre ++ pre2) ++ [TP 93]). cbn [fst snd]. split; [|eapply MK; eauto]. rewrite app_assoc, APP, <- app_assoc. reflexivity. }
  assert (SAFE1 : forall ts (mk : res cset) pre r, safe cset_ok mk -> ts = pre ++ r -> forall first b, (forall c, mk = Ok c -> cc_elem first b pre c 1%nat) -> (b = true -> hyphen_next r = false) ->
    safe (elem_post first ts) (c <- mk ;; Ok (c, 1%nat, r))).
  { intros ts mk pre r S E first b H HB. eapply safe_bind_eq; [exact S|]. intros c Ec _. simpl. exists b, pre. auto. }
  split; [|split].
  - intros ts F L. cbn [p_class]. destruct ts as [|[c| | | | | | | | | | | |s|] r]; simpl; auto.
    + destruct (Z.eqb_spec c 91) as [->|]; cbn [negb]; [|exact Logic.I]. inversion F as [|? ? _ F']; subst. cbn [length] in L.
      assert (POS : safe (class_post charclass (TP 91 :: r)) (' p <- p_elem I o f true r ;; ' q <- p_ops I o f (fst (fst p)) (snd (fst p)) (snd p) ;; c' <- finish_pos I o (fst (fst q)) ;;
         match snd q with TP e :: r2 => if e =? 93 then Ok (c', snd (fst q), r2) else Throw | _ => Throw end)).
      { apply (BODY true (finish_pos I o) r (cons (TP 91))); auto; [lia| |]; [apply (finish_pos_safe I IO)|]. intros. simpl. eapply cl_pos; eauto. }
      destruct r as [|[d| | | | | | | | | | | | |] r1]; try exact POS. destruct (Z.eqb_spec d 94) as [->|]; [|exact POS]. inversion F' as [|? ? _ F'']; subst. cbn [length] in L.
      apply (BODY false (finish_neg I o) r1 (fun l => TP 91 :: TP 94 :: l)); auto; [lia| |]; [apply (finish_neg_safe I IO)|]. intros. simpl. eapply cl_neg; eauto.
    + eapply safe_bind_eq; [apply (resolve_safe I IO)|]. intros v E _. simpl. exists [TSet s]. split; auto. cbn [fst snd]. apply cl_named; auto.
  - intros pos b pre x n ts HX HB FP F L. cbn [p_ops].
    assert (NEXT : forall op r, ts = op_toks op ++ r -> ts <> [] -> safe (class_post (fun pre' c n => exists b', cc_expr pos b' (pre ++ pre') c n) ts)
      (' p <- p_elem I o f false r ;; z <- combine op x (fst (fst p)) ;; p_ops I o f z (n + snd (fst p)) (snd p))).
    { intros op r E NE. subst ts. rewrite app_length in L. apply Forall_app in F as [F1 F2]. eapply safe_bind; [apply IHe; auto; lia|].
      intros [[y m] r1] (b1 & pre1 & E1 & H1 & HB1). cbn [fst snd] in *. subst r. pose proof (ne_len _ (elem_ne _ _ _ _ _ H1)) as LP. rewrite app_length in L. apply Forall_app in F2 as [F2 F3].
      eapply safe_bind_eq; [apply (combine_safe op x y); [eapply expr_cset; eauto|eapply elem_cset; eauto]|]. intros z Ez _.
      eapply safe_weaken; [apply (IHo pos b1 (pre ++ op_toks op ++ pre1) z (n + m)%nat r1); auto|].
      - eapply ce_op; eauto. intros X. specialize (HB X). apply elem_ne in H1. destruct op; cbn [op_toks app] in *; auto. destruct pre1; [congruence|exact HB].
      - apply Forall_app; split; auto. apply Forall_app; auto.
      - lia.
      - intros [[c2 n2] r2] (pre2 & E2 & b2 & H2). cbn [fst snd] in *. subst r1. exists (op_toks op ++ pre1 ++ pre2). cbn [fst snd]. split; [rewrite <- !app_assoc; auto|]. exists b2. rewrite <- !app_assoc in H2. exact H2. }
    assert (STOP : safe (class_post (fun pre' c n => exists b', cc_expr pos b' (pre ++ pre') c n) ts) (Ok (x, n, ts))).
    { exists []. cbn [fst snd]. rewrite app_nil_r. eauto. }
    destruct ts as [|k r]; [exact Logic.I|]. destruct k as [c| | | | | | | | | | | | |]; try (apply (NEXT OUnion); [auto|discriminate]).
    + destruct (Z.eqb_spec c 93); [exact STOP|]. apply (NEXT OUnion); [auto|discriminate].
    + apply (NEXT OMinus); [auto|discriminate].
    + apply (NEXT OAnd); [auto|discriminate].
    + apply (NEXT OXor); [auto|discriminate].
  - intros first ts F L. cbn [p_elem]. destruct ts as [|k r]; [exact Logic.I|]. inversion F as [|? ? K F']; subst. cbn [length] in L.
    assert (SC : forall r1, starts_class r1 = true -> True) by auto.
    destruct (cc_char first k) as [a|] eqn:Ek.
    + assert (A : 0 <= a < 1114112) by (eapply cc_char_ok; eauto).
      assert (ONE : hyphen_next r = false -> safe (elem_post first (k :: r)) (c <- char_set a ;; Ok (c, 1%nat, r))).
      { intros HN. apply (SAFE1 _ _ [k]) with (b := true); auto; [apply char_set_safe; auto|]. intros c Ec. eapply el_char; eauto. }
      destruct r as [|[d| | | | | | | | | | | | |] r1]; try (apply ONE; reflexivity). destruct (Z.eqb_spec d 45) as [->|ND]; [|apply ONE; apply Z.eqb_neq; exact ND]. inversion F' as [|? ? _ F'']; subst. cbn [length] in L.
      destruct (starts_class r1).
      * eapply safe_bind; [apply IHc; auto; lia|]. intros [[c n] r2] (pre & E & H). cbn [fst snd] in *. subst r1. apply Forall_app in F'' as [F1 F2].
        eapply safe_bind_eq; [apply char_dash_safe; auto; eapply class_cset; eauto|]. intros c' Ec _. simpl. exists false, (k :: TP 45 :: pre). split; auto. cbn [fst snd]. split; [eapply el_dash; eauto|discriminate].
      * destruct r1 as [|k2 r2]; [exact Logic.I|]. inversion F'' as [|? ? K2 F3]; subst. destruct (cc_char false k2) as [b|] eqn:Ek2; [|exact Logic.I].
        apply (SAFE1 _ _ [k; TP 45; k2]) with (b := false); auto; [apply char_range_safe; auto; eapply cc_char_ok; eauto| |discriminate]. intros c Ec. eapply el_range; eauto.
    + destruct (starts_class (k :: r)).
      { eapply safe_weaken; [apply IHc; auto; simpl; lia|]. intros [[c n] r2] (pre & E & H). exists false, pre. split; auto. split; [apply el_class; auto|discriminate]. }
      destruct k as [d|c|c|a| | | | | | | | | |]; try exact Logic.I.
      * destruct (Z.eqb_spec d 45) as [->|]; [|exact Logic.I]. destruct first; [exact Logic.I|]. apply (SAFE1 _ _ [TP 45]) with (b := false); auto; [apply char_set_safe; lia| |discriminate]. intros c Ec. apply el_hyphen; auto.
      * simpl in K. assert (ONE : hyphen_next r = false -> safe (elem_post first (TByte a :: r)) (c <- byte_set a ;; Ok (c, 1%nat, r))).
        { intros HN. apply (SAFE1 _ _ [TByte a]) with (b := true); auto; [apply byte_set_safe; auto|]. intros c Ec. apply el_byte; auto. }
        destruct r as [|[d| | | | | | | | | | | | |] r1]; try (apply ONE; reflexivity). destruct (Z.eqb_spec d 45) as [->|ND]; [|apply ONE; apply Z.eqb_neq; exact ND]. inversion F' as [|? ? _ F'']; subst. cbn [length] in L.
        destruct (starts_class r1).
        -- eapply safe_bind; [apply IHc; auto; lia|]. intros [[c n] r2] (pre & E & H). cbn [fst snd] in *. subst r1. apply Forall_app in F'' as [F1 F2].
           eapply safe_bind_eq; [apply byte_dash_safe; auto; eapply class_cset; eauto|]. intros c' Ec _. simpl. exists false, (TByte a :: TP 45 :: pre). split; auto. cbn [fst snd]. split; [eapply el_byte_dash; eauto|discriminate].
        -- destruct r1 as [|[ | | |b| | | | | | | | | |] r2]; try exact Logic.I. inversion F'' as [|? ? K2 F3]; subst.
           apply (SAFE1 _ _ [TByte a; TP 45; TByte b]) with (b := false); auto; [apply byte_range_safe; auto| |discriminate]. intros c Ec. apply el_byte_range; auto.
Qed.
End Class.

(** A run of at least ten digits *)
Definition is_digit (t : tok) : Prop := match t with TDigit _ => True | _ => False end.
Definition long_number (ts : list tok) : Prop := exists a ds b, ts = a ++ ds ++ b /\ Forall is_digit ds /\ (10 <= length ds)%nat.

Lemma long_number_r a ts : long_number ts -> long_number (a ++ ts).
Proof. intros (x & ds & b & -> & H). exists (a ++ x), ds, b. rewrite <- app_assoc. auto. Qed.

Lemma p_digits_ok : forall ts pre v, number pre v -> Forall is_digit pre -> Forall tok_ok ts -> 0 <= v < 10 ^ Z.of_nat (length pre) ->
  outcome (long_number (pre ++ ts)) (fun p => exists ds, ts = ds ++ snd p /\ number (pre ++ ds) (fst p)) (p_digits v ts).
Proof.
  assert (STOP : forall ts pre v, number pre v -> outcome (long_number (pre ++ ts)) (fun p => exists ds, ts = ds ++ snd p /\ number (pre ++ ds) (fst p)) (Ok (v, ts))).
  { intros ts pre v H. exists []. cbn [fst snd]. rewrite app_nil_r. auto. }
  induction ts as [|k ts IH]; intros pre v HN HD F L; [apply STOP; auto|].
  destruct k as [c|c|d|b| | | | | | | | | |]; try (apply STOP; auto; fail).
  cbn [p_digits]. inversion F as [|? ? D F']; subst. simpl in D.
  assert (L' : 0 <= v * 10 + (d - 48) < 10 ^ Z.of_nat (length (pre ++ [TDigit d]))).
  { rewrite app_length. cbn [length]. rewrite Nat2Z.inj_add, Z.pow_add_r by lia. change (10 ^ Z.of_nat 1) with 10. lia. }
  assert (HD' : Forall is_digit (pre ++ [TDigit d])) by (apply Forall_app; split; auto; constructor; simpl; auto).
  destruct (Z.leb_spec (v * 10 + (d - 48)) INT_MAX) as [H|H].
  - eapply outcome_weaken; [apply (IH (pre ++ [TDigit d])); auto; constructor; auto|rewrite <- app_assoc; auto|].
    intros [w r] (ds & E & HN'). cbn [fst snd] in *. exists (TDigit d :: ds). split; [rewrite E; auto|]. rewrite <- app_assoc in HN'. exact HN'.
  - simpl. exists [], (pre ++ [TDigit d]), ts. split; [rewrite <- app_assoc; auto|]. split; auto.
    destruct (le_lt_dec 10 (length (pre ++ [TDigit d]))) as [?|G]; auto. exfalso.
    assert (10 ^ Z.of_nat (length (pre ++ [TDigit d])) <= 10 ^ 9) by (apply Z.pow_le_mono_r; lia). unfold INT_MAX in H. change (10 ^ 9) with 1000000000 in *. lia.
Qed.

Lemma p_number_ok ts : Forall tok_ok ts ->
  outcome (long_number ts) (fun p => exists ds, ts = ds ++ snd p /\ number ds (fst p)) (p_number ts).
Proof.
  intros F. destruct ts as [|[c|c|d|b| | | | | | | | | |] ts]; try exact Logic.I. cbn [p_number]. inversion F as [|? ? D F']; subst. simpl in D.
  eapply outcome_weaken; [apply (p_digits_ok ts [TDigit d]); auto; [constructor|constructor; simpl; auto|change (10 ^ Z.of_nat (length [TDigit d])) with 10; lia]|auto|].
  intros [w r] (ds & E & HN). cbn [fst snd] in *. exists (TDigit d :: ds). split; [rewrite E; auto|auto].
Qed.

Definition quant_post (ts : list tok) (q : option (N * N * nat) * list tok) : Prop :=
  match fst q with None => snd q = ts /\ brace_next ts = false | Some (mn, mx, m) => exists pre, ts = pre ++ snd q /\ quant pre mn mx m end.

Lemma p_quant_ok ts : Forall tok_ok ts -> outcome (long_number ts) (quant_post ts) (p_quant ts).
Proof.
  intros F. destruct ts as [|[c| | | | | | | | | | | | |] r]; try (split; reflexivity). cbn [p_quant].
  destruct (Z.eqb_spec c 42) as [->|]; [exists [TP 42]; split; auto; constructor|].
  destruct (Z.eqb_spec c 43) as [->|]; [exists [TP 43]; split; auto; constructor|].
  destruct (Z.eqb_spec c 63) as [->|]; [exists [TP 63]; split; auto; constructor|].
  destruct (Z.eqb_spec c 123) as [->|NB]; [|split; [reflexivity|apply Z.eqb_neq; exact NB]]. inversion F as [|? ? _ F']; subst.
  eapply outcome_bind.
  { eapply outcome_weaken; [apply (p_number_ok r F')|apply (long_number_r [TP 123])|]. intros p H. exact H. }
  intros [v r1] (ds & E & HN). cbn [fst snd] in *. subst r. apply Forall_app in F' as [F1 F2].
  destruct r1 as [|[d| | | | | | | | | | | | |] r1]; try exact Logic.I.
  destruct (Z.eqb_spec d 125) as [->|].
  { exists (TP 123 :: ds ++ [TP 125]). cbn [fst snd]. split; [simpl; rewrite <- app_assoc; auto|]. constructor; auto. }
  destruct (Z.eqb_spec d 44) as [->|]; [|exact Logic.I]. inversion F2 as [|? ? _ F3]; subst.
  assert (N2 : outcome (long_number (TP 123 :: ds ++ TP 44 :: r1)) (quant_post (TP 123 :: ds ++ TP 44 :: r1))
    (' q <- p_number r1 ;;
     match snd q with
     | TP e :: r2 => if e =? 125 then if v <=? fst q then Ok (Some (Z.to_N v, Z.to_N (fst q), 2%nat), r2) else Throw else Throw
     | _ => Throw
     end)).
  { eapply outcome_bind.
    { eapply outcome_weaken; [apply (p_number_ok r1 F3)|intros H; apply (long_number_r (TP 123 :: ds ++ [TP 44])) in H; simpl in H; rewrite <- app_assoc in H; exact H|]. intros p H. exact H. }
    intros [w r2] (us & E & HN2). cbn [fst snd] in *. subst r1. destruct r2 as [|[e| | | | | | | | | | | | |] r2]; try exact Logic.I.
    destruct (Z.eqb_spec e 125) as [->|]; [|exact Logic.I]. destruct (Z.leb_spec v w); [|exact Logic.I].
    exists (TP 123 :: ds ++ TP 44 :: us ++ [TP 125]). cbn [fst snd]. split; [simpl; rewrite <- app_assoc; simpl; rewrite <- app_assoc; auto|]. constructor; auto. }
  destruct r1 as [|[e| | | | | | | | | | | | |] r2]; try exact N2.
  destruct (Z.eqb_spec e 125) as [->|]; [|exact Logic.I].
  exists (TP 123 :: ds ++ [TP 44; TP 125]). cbn [fst snd]. split; [simpl; rewrite <- app_assoc; auto|]. constructor; auto.
Qed.

Lemma span_turn_app ts a b : span_turn ts = (a, b) -> ts = a ++ b.
Proof.
  revert a b. induction ts as [|k ts IH]; intros a b E; [injection E as <- <-; reflexivity|].
  destruct k as [c| | | | | | | | | | | | |]; cbn [span_turn] in E; try (injection E as <- <-; reflexivity).
  destruct (_ || _); [|injection E as <- <-; reflexivity]. destruct (span_turn ts) as [x y]. injection E as <- <-. simpl. f_equal. auto.
Qed.

Lemma p_switch_ok o ts o1 r : p_switch o ts = Some (o1, r) -> exists pre, ts = pre ++ r /\ switch o pre o1.
Proof.
  unfold p_switch. destruct ts as [|[a| | | | | | | | | | | | |] [|[b| | | | | | | | | | | | |] ts]]; try discriminate.
  destruct (Z.eqb_spec a 40) as [->|]; [|discriminate]. destruct (Z.eqb_spec b 63) as [->|]; [|discriminate]. cbn [andb].
  destruct (span_turn ts) as [on r1] eqn:E1. apply span_turn_app in E1. subst ts. destruct (turns true on o) as [oo|] eqn:E2; [|discriminate].
  destruct r1 as [|[c| | | | | | | | | | | | |] r2]; try discriminate.
  destruct (Z.eqb_spec c 41) as [->|].
  { destruct on as [|k on]; [discriminate|]. intros [= <- <-]. exists (TP 40 :: TP 63 :: (k :: on) ++ [TP 41]). split; [simpl; rewrite <- app_assoc; auto|].
    constructor; [discriminate|auto]. }
  destruct (Z.eqb_spec c 45) as [->|]; [|discriminate]. destruct (span_turn r2) as [off r3] eqn:E3. apply span_turn_app in E3. subst r2.
  destruct off as [|k off]; [discriminate|]. destruct (turns false (k :: off) oo) as [o2|] eqn:E4; [|discriminate].
  destruct r3 as [|[d| | | | | | | | | | | | |] r4]; try discriminate. destruct (Z.eqb_spec d 41) as [->|]; [|discriminate]. intros [= <- <-].
  destruct on as [|k0 on].
  - simpl in E2. injection E2 as <-. exists (TP 40 :: TP 63 :: TP 45 :: (k :: off) ++ [TP 41]). split; [simpl; rewrite <- app_assoc; auto|]. constructor; [discriminate|auto].
  - exists (TP 40 :: TP 63 :: (k0 :: on) ++ TP 45 :: (k :: off) ++ [TP 41]). split; [simpl; rewrite <- app_assoc; simpl; rewrite <- app_assoc; auto|].
    econstructor; eauto; discriminate.
Qed.

Lemma look_ok ts k r : look ts = Some (k, r) -> (1 <= k <= 4)%N /\ ts = look_toks k ++ r.
Proof.
  unfold look. destruct ts as [|[a| | | | | | | | | | | | |] ts]; try discriminate.
  destruct (Z.eqb_spec a 61) as [->|]; [intros [= <- <-]; split; [unfold LOOKAHEAD_POS; lia|reflexivity]|].
  destruct (Z.eqb_spec a 33) as [->|]; [intros [= <- <-]; split; [unfold LOOKAHEAD_NEG; lia|reflexivity]|].
  destruct (Z.eqb_spec a 60) as [->|]; [|discriminate]. destruct ts as [|[b| | | | | | | | | | | | |] ts]; try discriminate.
  destruct (Z.eqb_spec b 61) as [->|]; [intros [= <- <-]; split; [unfold LOOKBEHIND_POS; lia|reflexivity]|].
  destruct (Z.eqb_spec b 33) as [->|]; [intros [= <- <-]; split; [unfold LOOKBEHIND_NEG; lia|reflexivity]|discriminate].
Qed.

Lemma simple_atom_safe o k x : tok_ok k -> simple_atom I o k = Some x -> safe (fun _ => True) x.
Proof.
  intros K. assert (CH : forall c, 0 <= c < 1114112 -> safe (fun _ => True) (t <- literal_node I o c ;; Ok (t, 1%nat))).
  { intros c H. unfold literal_node. destruct (cased o); [exact Logic.I|].
    destruct (set_spec MAXCP [] (Z.to_N c) true maxcp_pos (canon_empty _)) as (v & -> & C & _); [unfold MAXCP; lia|]. cbn [bind].
    eapply safe_bind with (P := fun _ => True); [|intros; exact Logic.I]. eapply safe_bind; [apply (case_safe I IO o v C)|]. intros [w b] _. exact Logic.I. }
  assert (WB : forall b, safe (fun _ => True) (x <- word_boundary b ;; Ok (x, 11%nat))).
  { intros b. destruct (word_boundary_spec b) as (t & -> & _). exact Logic.I. }
  destruct k as [c|c|c|b| | | | | | | | | |]; cbn [simple_atom].
  - destruct (character (TP c)) as [d|] eqn:Ec; [intros [= <-]; apply CH; eapply character_ok; eauto|].
    destruct (c =? 46); [intros [= <-]; exact Logic.I|]. destruct (c =? 94); [intros [= <-]; exact Logic.I|]. destruct (c =? 36); [intros [= <-]; exact Logic.I|discriminate].
  - intros [= <-]. apply CH. exact K.
  - intros [= <-]. apply CH. simpl in K. lia.
  - intros [= <-]. exact Logic.I.
  - intros [= <-]. exact Logic.I.
  - intros [= <-]. exact Logic.I.
  - intros [= <-]. exact Logic.I.
  - intros [= <-]. exact Logic.I.
  - intros [= <-]. exact Logic.I.
  - intros E. injection E as <-. exact (WB true).
  - discriminate.
  - intros E. injection E as <-. exact (WB false).
  - discriminate.
  - discriminate.
Qed.

Lemma outcome_bind_eq {A B} bad (P : A -> Prop) (Q : B -> Prop) r f : outcome bad P r -> (forall a, r = Ok a -> P a -> outcome bad Q (f a)) -> outcome bad Q (bind r f).
Proof. destruct r; simpl; auto; contradiction. Qed.

Definition post (Q : list tok -> opts -> pnode -> nat -> Prop) (ts : list tok) (s : state) : Prop :=
  exists pre, ts = pre ++ snd s /\ Q pre (fst (fst (fst s))) (snd (fst (fst s))) (snd (fst s)).

Lemma alt_ne o ts o' t n : alt I o ts o' t n -> ts <> [].
Proof. intros H. apply (proj1 (tree_invs I IO) _ _ _ _ _ H). Qed.
Lemma concat_ne b o ts o' t n : concat I b o ts o' t n -> ts <> [].
Proof. intros H. apply (proj1 (proj2 (tree_invs I IO)) _ _ _ _ _ _ H). Qed.
Lemma rep_ne b o ts o' t n : rep I b o ts o' t n -> ts <> [].
Proof. intros H. apply (proj1 (proj2 (proj2 (tree_invs I IO))) _ _ _ _ _ _ H). Qed.
Lemma patom_ne o ts o' t n : patom I o ts o' t n -> ts <> [].
Proof. intros H. apply (proj2 (proj2 (proj2 (tree_invs I IO))) _ _ _ _ _ H). Qed.

Definition some_concat (o : opts) (ts : list tok) (o' : opts) (t : pnode) (n : nat) : Prop := exists b, concat I b o ts o' t n.
Definition rep_post (o : opts) (ts : list tok) (s : state) : Prop :=
  exists b pre, ts = pre ++ snd s /\ rep I b o pre (fst (fst (fst s))) (snd (fst (fst s))) (snd (fst s)) /\ (b = true -> brace_next (snd s) = false).

Lemma run_ok : forall f,
  (forall o ts, Forall tok_ok ts -> (6 * length ts + 5 <= f)%nat -> outcome (long_number ts) (post (alt I o) ts) (p_alt I f o ts)) /\
  (forall o0 pre o t n ts, alt I o0 pre o t n -> Forall tok_ok ts -> (6 * length ts + 5 <= f)%nat ->
     outcome (long_number ts) (post (fun pre' => alt I o0 (pre ++ pre')) ts) (p_alts I f o t n ts)) /\
  (forall o ts, Forall tok_ok ts -> (6 * length ts + 4 <= f)%nat -> outcome (long_number ts) (post (some_concat o) ts) (p_concat I f o ts)) /\
  (forall b o0 pre o t n ts, concat I b o0 pre o t n -> (b = true -> brace_next ts = false) -> Forall tok_ok ts -> (6 * length ts + 4 <= f)%nat ->
     outcome (long_number ts) (post (fun pre' => some_concat o0 (pre ++ pre')) ts) (p_concats I f o t n ts)) /\
  (forall o ts, Forall tok_ok ts -> (6 * length ts + 2 <= f)%nat -> outcome (long_number ts) (rep_post o ts) (p_rep I f o ts)) /\
  (forall o ts, Forall tok_ok ts -> (6 * length ts + 1 <= f)%nat -> outcome (long_number ts) (post (patom I o) ts) (p_atom I f o ts)).
Proof.
  induction f as [|f (IHa & IHas & IHc & IHcs & IHr & IHt)]; [repeat split; intros; lia|].
  repeat apply conj.
  - intros o ts F L. cbn [p_alt]. destruct (p_switch o ts) as [[o1 r]|] eqn:ES.
    + destruct (p_switch_ok _ _ _ _ ES) as (pre & -> & HS). pose proof (ne_len _ (switch_ne _ _ _ HS)). rewrite app_length in L. apply Forall_app in F as [F1 F2].
      eapply outcome_weaken; [apply IHa; auto; lia|apply long_number_r|]. intros [[[o' t] n] r'] (q & E & H'). cbn [fst snd] in *. exists (pre ++ q). cbn [fst snd]. subst r. rewrite app_assoc. split; auto.
      eapply al_switch; eauto.
    + eapply outcome_bind; [apply IHc; auto; lia|]. intros [[[o' t] n] r'] (pre & E & b & H'). cbn [fst snd] in *. subst ts. pose proof (ne_len _ (concat_ne _ _ _ _ _ _ H')). rewrite app_length in L. apply Forall_app in F as [F1 F2].
      eapply outcome_weaken; [apply (IHas o pre); auto; [eapply al_concat; eauto|lia]|apply long_number_r|]. intros [[[o2 t2] n2] r2] (q & E & H2). cbn [fst snd] in *. exists (pre ++ q). cbn [fst snd]. subst r'. rewrite app_assoc. auto.
  - intros o0 pre o t n ts HA F L. cbn [p_alts].
    assert (STOP : outcome (long_number ts) (post (fun pre' => alt I o0 (pre ++ pre')) ts) (Ok (o, t, n, ts))).
    { exists []. cbn [fst snd]. rewrite app_nil_r. auto. }
    destruct ts as [|[c| | | | | | | | | | | | |] r]; try exact STOP. destruct (Z.eqb_spec c 124) as [->|]; [|exact STOP]. inversion F as [|? ? _ F']; subst. cbn [length] in L.
    eapply outcome_bind; [eapply outcome_weaken; [apply IHc; auto; lia|apply (long_number_r [TP 124])|intros a Ha; exact Ha]|].
    intros [[[o' u] m] r'] (p2 & E & b & H'). cbn [fst snd] in *. subst r. pose proof (ne_len _ (concat_ne _ _ _ _ _ _ H')). rewrite app_length in L. apply Forall_app in F' as [F1 F2].
    eapply outcome_weaken; [apply (IHas o0 (pre ++ TP 124 :: p2)); auto; [eapply al_or; eauto|lia]|intros X; apply (long_number_r (TP 124 :: p2)) in X; exact X|].
    intros [[[o2 t2] n2] r2] (q & E & H2). cbn [fst snd] in *. exists (TP 124 :: p2 ++ q). cbn [fst snd]. subst r'. split; [simpl; rewrite app_assoc; auto|]. rewrite <- app_assoc in H2. exact H2.
  - intros o ts F L. cbn [p_concat]. eapply outcome_bind; [apply IHr; auto; lia|]. intros [[[o' t] n] r'] (b & pre & E & H' & HB). cbn [fst snd] in *. subst ts. pose proof (ne_len _ (rep_ne _ _ _ _ _ _ H')). rewrite app_length in L. apply Forall_app in F as [F1 F2].
    eapply outcome_weaken; [apply (IHcs b o pre); auto; [apply co_rep; auto|lia]|apply long_number_r|]. intros [[[o2 t2] n2] r2] (q & E & H2). cbn [fst snd] in *. exists (pre ++ q). cbn [fst snd]. subst r'. rewrite app_assoc. auto.
  - intros b o0 pre o t n ts HC HB F L. cbn [p_concats].
    assert (STOP : outcome (long_number ts) (post (fun pre' => some_concat o0 (pre ++ pre')) ts) (Ok (o, t, n, ts))).
    { exists []. cbn [fst snd]. rewrite app_nil_r. split; auto. exists b. auto. }
    assert (STEP : forall b' p2 r o' t' n', ts = p2 ++ r -> p2 <> [] -> concat I b' o0 (pre ++ p2) o' t' n' -> (b' = true -> brace_next r = false) ->
      outcome (long_number ts) (post (fun pre' => some_concat o0 (pre ++ pre')) ts) (p_concats I f o' t' n' r)).
    { intros b' p2 r o' t' n' -> NE H2 HB'. apply ne_len in NE. rewrite app_length in L. apply Forall_app in F as [F1 F2].
      eapply outcome_weaken; [apply (IHcs b' o0 (pre ++ p2)); eauto; lia|apply long_number_r|].
      intros [[[o2 t2] n2] r2] (q & E & H3). cbn [fst snd] in *. exists (p2 ++ q). cbn [fst snd]. subst r. rewrite app_assoc. split; auto. rewrite <- app_assoc in H3. exact H3. }
    assert (MORE : outcome (long_number ts) (post (fun pre' => some_concat o0 (pre ++ pre')) ts)
      (match p_switch o ts with
       | Some (o1, r) => p_concats I f o1 t n r
       | None => ' (o1, u, m, r) <- p_rep I f o ts ;; p_concats I f o1 (PCat t u) (n + m + 1) r
       end)).
    { destruct (p_switch o ts) as [[o1 r]|] eqn:ES.
      - destruct (p_switch_ok _ _ _ _ ES) as (p2 & E & HS). apply (STEP false p2); auto; [eapply switch_ne; eauto|eapply co_switch; eauto|discriminate].
      - eapply outcome_bind; [apply IHr; auto; lia|]. intros [[[o' u] m] r'] (b' & p2 & E & H' & HB'). cbn [fst snd] in *. apply (STEP b' p2); auto; [eapply rep_ne; eauto|eapply co_cat; eauto].
        intros X. specialize (HB X). apply rep_ne in H'. rewrite E in HB. destruct p2; [congruence|exact HB]. }
    destruct ts as [|[c| | | | | | | | | | | | |] r]; try exact STOP; try exact MORE.
    + destruct (_ || _); [exact STOP|exact MORE].
    + apply (STEP false [TKill]); auto; [discriminate|eapply co_kill; eauto|discriminate].
  - intros o ts F L. cbn [p_rep]. eapply outcome_bind; [apply IHt; auto; lia|]. intros [[[o' t] n] r'] (pre & E & H'). cbn [fst snd] in *. subst ts. apply Forall_app in F as [F1 F2].
    eapply outcome_bind; [eapply outcome_weaken; [apply p_quant_ok; auto|apply long_number_r|intros a Ha; exact Ha]|].
    intros [q r2] HQ. unfold quant_post in HQ. cbn [fst snd] in *. destruct q as [[[mn mx] m]|].
    + destruct HQ as (p2 & E & HQ). subst r'.
      assert (G : outcome (long_number (pre ++ p2 ++ r2)) (rep_post o (pre ++ p2 ++ r2)) (Ok (o', PRep true t mn mx, (n + m + 1)%nat, r2))).
      { exists false, (pre ++ p2). cbn [fst snd]. rewrite app_assoc. split; auto. split; [apply re_greedy; auto|discriminate]. }
      destruct r2 as [|[c| | | | | | | | | | | | |] r3]; try exact G. destruct (Z.eqb_spec c 63) as [->|]; [|exact G].
      exists false, (pre ++ p2 ++ [TP 63]). cbn [fst snd]. rewrite <- !app_assoc. split; auto. split; [apply re_lazy; auto|discriminate].
    + exists true, pre. cbn [fst snd]. split; auto. split; [apply re_atom; auto|]. intros _. apply HQ.
  - intros o ts F L. cbn [p_atom]. destruct (starts_class ts).
    { apply safe_outcome. eapply safe_bind; [apply (proj1 (p_class_ok o (S (2 * length ts)))); auto; lia|]. intros [[c n] r] (pre & E & H). cbn [fst snd] in *. simpl. exists pre. cbn [fst snd]. split; auto. apply at_class; auto. }
    destruct ts as [|k r]; [exact Logic.I|]. inversion F as [|? ? K F']; subst. cbn [length] in L. destruct (simple_atom I o k) as [x|] eqn:Ek.
    { apply safe_outcome. eapply safe_bind_eq; [eapply simple_atom_safe; eauto|]. intros [t n] -> _. simpl. exists [k]. cbn [fst snd]. split; auto. apply at_simple; auto. }
    destruct k as [c| | | | | | | | | | | | |]; try exact Logic.I. destruct (Z.eqb_spec c 40) as [->|]; cbn [negb]; [|exact Logic.I].
    assert (GROUP : outcome (long_number (TP 40 :: r)) (post (patom I o) (TP 40 :: r))
      (' (o1, t, n, r3) <- p_alt I f o r ;; match r3 with TP e :: r4 => if e =? 41 then Ok (o, t, n, r4) else Throw | _ => Throw end)).
    { eapply outcome_bind; [eapply outcome_weaken; [apply IHa; auto; lia|apply (long_number_r [TP 40])|intros a Ha; exact Ha]|].
      intros [[[o' t] n] r'] (pre & E & H'). cbn [fst snd] in *. subst r. destruct r' as [|[e| | | | | | | | | | | | |] r4]; try exact Logic.I. destruct (Z.eqb_spec e 41) as [->|]; [|exact Logic.I].
      exists (TP 40 :: pre ++ [TP 41]). cbn [fst snd]. split; [simpl; rewrite <- app_assoc; auto|]. eapply at_group; eauto. }
    destruct r as [|[d| | | | | | | | | | | | |] r1]; try exact GROUP. destruct (Z.eqb_spec d 63) as [->|]; [|exact GROUP].
    destruct (look r1) as [[kind r2]|] eqn:EL; [|exact Logic.I]. destruct (look_ok _ _ _ EL) as (HK & ->). cbn [length] in L. rewrite app_length in L.
    inversion F' as [|? ? _ F2]; subst. apply Forall_app in F2 as [F2 F3].
    eapply outcome_bind; [eapply outcome_weaken; [apply IHa; auto; lia|apply (long_number_r (TP 40 :: TP 63 :: look_toks kind))|intros a Ha; exact Ha]|].
    intros [[[o' t] n] r'] (pre & E & H'). cbn [fst snd] in *. subst r2. destruct r' as [|[e| | | | | | | | | | | | |] r4]; try exact Logic.I. destruct (Z.eqb_spec e 41) as [->|]; [|exact Logic.I].
    exists (TP 40 :: TP 63 :: look_toks kind ++ pre ++ [TP 41]). cbn [fst snd]. split; [simpl; rewrite <- !app_assoc; auto|]. eapply at_look; eauto.
Qed.
End Run.
