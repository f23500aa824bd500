(** Patterns that are a row of plain characters, and the size of a tree. *)
From Verif Require Import Base RangeSetModel RangeSetProofs ByteSetModel UtfModel UtfProofs Thm_Utf EscModel PatModel PatSpec EncModel RewriteProofs BuildSpec BuildTree BuildEnc ParseModel ParseSets ParseGrammar ParseRun ParseText.
Open Scope Z_scope.

(** The characters one after the other, as the grammar nests them *)
Definition row (p : pnode) (ps : list pnode) : pnode := fold_left PCat ps p.

(** A token that stands for the character [c] and for nothing else *)
Definition plain (k : tok) (c : Z) : Prop := k = TChar c \/ k = TDigit c \/ (k = TP c /\ (c = 97 \/ c = 105 \/ c = 44)).

Section Plain.
Variable I : icu.
Variable o : opts.
Notation lit c p := (literal_node I o c = Ok p).

Lemma plain_class k c r : plain k c -> starts_class (k :: r) = false.
Proof. intros [-> | [-> | (-> & H)]]; simpl; auto. lia. Qed.
Lemma plain_switch k c r : plain k c -> p_switch o (k :: r) = None.
Proof. intros [-> | [-> | (-> & H)]]; auto. unfold p_switch. destruct r as [|[b| | | | | | | | | | | | |] r]; auto. destruct (Z.eqb_spec c 40); [lia|]. auto. Qed.
Lemma plain_quant k c r : plain k c -> p_quant (k :: r) = Ok (None, k :: r).
Proof.
  intros [-> | [-> | (-> & H)]]; auto. unfold p_quant. destruct (Z.eqb_spec c 42); [lia|]. destruct (Z.eqb_spec c 43); [lia|]. destruct (Z.eqb_spec c 63); [lia|]. destruct (Z.eqb_spec c 123); [lia|]. auto.
Qed.
Lemma plain_atom k c p : plain k c -> lit c p -> simple_atom I o k = Some (Ok (p, 1%nat)).
Proof.
  intros H L. assert (C : character k = Some c).
  { destruct H as [-> | [-> | (-> & H)]]; auto. unfold character. assert (X : existsb (Z.eqb c) [97; 105; 93; 45; 123; 125; 44; 60; 61; 33] = true); [|rewrite X; auto]. apply existsb_exists. exists c. split; [|apply Z.eqb_refl]. simpl. lia. }
  destruct H as [-> | [-> | (-> & _)]]; cbn [simple_atom]; rewrite ?C; cbn [character]; rewrite L; reflexivity.
Qed.
Lemma plain_more k c r f t n : plain k c -> p_concats I (S f) o t n (k :: r) = (' (o1, u, m, r) <- p_rep I f o (k :: r) ;; p_concats I f o1 (PCat t u) (n + m + 1) r).
Proof.
  intros H. cbn [p_concats]. rewrite (plain_switch k c r H). destruct H as [-> | [-> | (-> & H)]]; auto. destruct (Z.eqb_spec c 124); [lia|]. destruct (Z.eqb_spec c 41); [lia|]. auto.
Qed.
Lemma plain_alts k c r f t n : plain k c -> p_alts I (S f) o t n (k :: r) = Ok (o, t, n, k :: r).
Proof. intros [-> | [-> | (-> & H)]]; auto. cbn [p_alts]. destruct (Z.eqb_spec c 124); [lia|auto]. Qed.

(** What follows: the end, or an invalid token *)
Definition quiet (r : list tok) : Prop := p_quant r = Ok (None, r).
Lemma plain_rep k c p r f : plain k c -> lit c p -> quiet r -> p_rep I (S (S f)) o (k :: r) = Ok (o, p, 1%nat, r).
Proof.
  intros H L Q. cbn [p_rep p_atom]. rewrite (plain_class k c r H), (plain_atom k c p H L). cbn [bind fst snd]. rewrite Q. reflexivity.
Qed.

Lemma plain_quiet ks cs tail : Forall2 plain ks cs -> tail = [] \/ tail = [TBad] -> quiet (ks ++ tail).
Proof. intros F T. destruct F as [|k c ks cs H F]; [destruct T as [-> | ->]; reflexivity|]. eapply plain_quant; eauto. Qed.

Lemma plain_concats : forall ks cs ps f t n tail, Forall2 plain ks cs -> Forall2 (fun c p => lit c p) cs ps -> tail = [] \/ tail = [TBad] -> (2 + length ks < f)%nat ->
  p_concats I f o t n (ks ++ tail) = match tail with [] => Ok (o, row t ps, (n + 2 * length ks)%nat, []) | _ => Throw end.
Proof.
  induction ks as [|k ks IH]; intros cs ps f t n tail F L T HF; inversion F as [|? c ? cs' H F']; subst; inversion L as [|? p ? ps' Hp L']; subst; (destruct f as [|f]; [lia|]).
  - destruct T as [-> | ->]; cbn [app]; [cbn [p_concats row fold_left]; rewrite Nat.add_0_r; auto|]. cbn [p_concats p_switch]. destruct f as [|[|f]]; simpl in HF; try lia. reflexivity.
  - cbn [app]. rewrite (plain_more k c _ f t n H). destruct f as [|[|f]]; simpl in HF; try lia. rewrite (plain_rep k c p); auto; [|eapply plain_quiet; eauto]. cbn [bind].
    rewrite (IH cs' ps'); auto; [|lia]. destruct tail; auto. cbn [row fold_left length]. replace (n + 1 + 1 + 2 * length ks)%nat with (n + 2 * S (length ks))%nat by lia. auto.
Qed.

Lemma alt_S f ts : p_alt I (S f) o ts = match p_switch o ts with Some (o1, r) => p_alt I f o1 r | None => ' (o1, t, n, r) <- p_concat I f o ts ;; p_alts I f o1 t n r end.
Proof. reflexivity. Qed.
Lemma concat_S f ts : p_concat I (S f) o ts = (' (o1, t, n, r) <- p_rep I f o ts ;; p_concats I f o1 t n r).
Proof. reflexivity. Qed.

Lemma plain_alt k ks c cs p ps f tail : plain k c -> Forall2 plain ks cs -> lit c p -> Forall2 (fun c p => lit c p) cs ps -> tail = [] \/ tail = [TBad] -> (6 + length ks < f)%nat ->
  p_alt I f o (k :: ks ++ tail) = match tail with [] => Ok (o, row p ps, (1 + 2 * length ks)%nat, []) | _ => Throw end.
Proof.
  intros H F L LS T HF. destruct f as [|f1]; [lia|]. rewrite alt_S, (plain_switch k c _ H). destruct f1 as [|f2]; [lia|]. rewrite concat_S. destruct f2 as [|[|f]]; [lia|lia|].
  rewrite (plain_rep k c p _ f H L); [|eapply plain_quiet; eauto]. cbn [bind]. rewrite (plain_concats ks cs ps); auto; [|lia]. destruct T as [-> | ->]; reflexivity.
Qed.

(** A token that is not read *)
Lemma bad_alt f : (4 < f)%nat -> p_alt I f o [TBad] = Throw /\ p_alt I f o [] = Throw.
Proof. intros H. do 5 (destruct f as [|f]; [lia|]). split; reflexivity. Qed.
End Plain.

(** * Reading plain characters *)

Section Lexing.
Variable I : icu.

Lemma lex_literal : forall s f, (length s <= f)%nat -> Forall (fun c => 1 <= c) s -> lex I f true s = map TChar s.
Proof.
  induction s as [|c s IH]; intros f L F; (destruct f as [|f]; [simpl in *; try lia; auto|]); auto. cbn [lex]. inversion F; subst. unfold yylex.
  destruct (Z.ltb_spec c 1); [lia|]. simpl. f_equal. apply IH; auto. simpl in L. lia.
Qed.
Lemma lex_literal_bad : forall a c b f, (length (a ++ c :: b) <= f)%nat -> Forall (fun c => 1 <= c) a -> c < 1 -> lex I f true (a ++ c :: b) = map TChar a ++ [TBad].
Proof.
  induction a as [|x a IH]; intros c b f L F H; (destruct f as [|f]; [rewrite app_length in L; simpl in L; lia|]); cbn [app lex].
  - unfold yylex. destruct (Z.ltb_spec c 1); [auto|lia].
  - inversion F; subst. unfold yylex. destruct (Z.ltb_spec x 1); [lia|]. simpl. f_equal. apply IH; auto. simpl in L. lia.
Qed.
Lemma first_small : forall s, Forall (fun c => 1 <= c) s \/ exists a c b, s = a ++ c :: b /\ Forall (fun c => 1 <= c) a /\ c < 1.
Proof.
  induction s as [|c s [IH|(a & x & b & -> & F & H)]]; auto.
  - destruct (Z_lt_le_dec c 1); [right; exists [], c, s; auto|left; constructor; auto].
  - destruct (Z_lt_le_dec c 1); [right; exists [], c, (a ++ x :: b); auto|right; exists (c :: a), x, b; auto].
Qed.

(** Escaped characters *)
Definition escape1 (c : Z) : list Z := if is_escaped_meta c then [92; c] else [c].
Definition escaped (s : list Z) : list Z := flat_map escape1 s.

Lemma meta_in c : is_escaped_meta c = true <-> In c [124; 40; 41; 63; 43; 42; 46; 91; 93; 94; 36; 45; 123; 125; 38; 126; 60; 61; 33; 92].
Proof.
  unfold is_escaped_meta. rewrite existsb_exists. split; [intros (x & Hx & E); apply Z.eqb_eq in E; subst; auto|intros H; exists c; split; auto; apply Z.eqb_refl].
Qed.

Lemma lex_escape1 c t : 1 <= c -> exists k, plain k c /\ forall f, lex I (S f) false (escape1 c ++ t) = k :: lex I f false t.
Proof.
  intros H. unfold escape1. destruct (is_escaped_meta c) eqn:E.
  - exists (TChar c). split; [left; auto|]. intros f. cbn [app lex]. unfold yylex. change (92 <? 1) with false. change (is_punct 92) with false. cbn iota beta. change (92 =? 38) with false. change (92 =? 126) with false. change (92 =? 45) with false. change (92 =? 92) with true. cbn iota beta. cbn [consumeEscape]. rewrite E. auto.
  - assert (NM : ~ In c [124; 40; 41; 63; 43; 42; 46; 91; 93; 94; 36; 45; 123; 125; 38; 126; 60; 61; 33; 92]) by (intros K; apply meta_in in K; congruence). simpl in NM.
    assert (P : is_punct c = true <-> c = 97 \/ c = 105 \/ c = 44).
    { unfold is_punct. rewrite existsb_exists. split; [intros (x & Hx & Ex); apply Z.eqb_eq in Ex; subst x; simpl in Hx; lia|intros K; exists c; split; [simpl; lia|apply Z.eqb_refl]]. }
    destruct (is_punct c) eqn:EP.
    + exists (TP c). split; [right; right; split; auto; tauto|]. intros f. cbn [app lex]. unfold yylex. destruct (Z.ltb_spec c 1); [lia|]. rewrite EP. auto.
    + destruct ((48 <=? c) && (c <=? 57)) eqn:ED.
      * exists (TDigit c). split; [right; left; auto|]. intros f. cbn [app lex]. unfold yylex. destruct (Z.ltb_spec c 1); [lia|]. rewrite EP. destruct (Z.eqb_spec c 38); [lia|]. destruct (Z.eqb_spec c 126); [lia|]. destruct (Z.eqb_spec c 45); [lia|]. destruct (Z.eqb_spec c 92); [lia|]. rewrite ED. auto.
      * exists (TChar c). split; [left; auto|]. intros f. cbn [app lex]. unfold yylex. destruct (Z.ltb_spec c 1); [lia|]. rewrite EP. destruct (Z.eqb_spec c 38); [lia|]. destruct (Z.eqb_spec c 126); [lia|]. destruct (Z.eqb_spec c 45); [lia|]. destruct (Z.eqb_spec c 92); [lia|]. rewrite ED. auto.
Qed.
Lemma escape1_length c : (1 <= length (escape1 c))%nat.
Proof. unfold escape1. destruct (is_escaped_meta c); simpl; lia. Qed.
Lemma lex_escaped : forall s f, (length s <= f)%nat -> Forall (fun c => 1 <= c) s -> exists ks, lex I f false (escaped s) = ks /\ Forall2 plain ks s.
Proof.
  induction s as [|c s IH]; intros f L F; [exists []; split; [destruct f; auto|constructor]|]. inversion F; subst. destruct f as [|f]; simpl in L; [lia|].
  destruct (IH f ltac:(lia) ltac:(auto)) as (ks & E & F2). destruct (lex_escape1 c (escaped s) ltac:(auto)) as (k & P & EK). exists (k :: ks). cbn [escaped flat_map]. fold (escaped s). rewrite EK, E. split; auto.
Qed.
Lemma escaped_length s : (length s <= length (escaped s))%nat.
Proof. induction s as [|c s IH]; simpl; auto. rewrite app_length. pose proof (escape1_length c). lia. Qed.
End Lexing.

(** * What a row of characters matches *)

Lemma row_lang A : forall ps p w, lang A (row p ps) w <-> exists u us, w = u ++ List.concat us /\ lang A p u /\ Forall2 (lang A) ps us.
Proof.
  induction ps as [|q ps IH]; intros p w; cbn [row fold_left].
  - split; [intros H; exists w, []; simpl; rewrite app_nil_r; auto|]. intros (u & us & -> & H & F). inversion F; subst. simpl. rewrite app_nil_r. auto.
  - unfold row in IH. rewrite IH. split.
    + intros (u & us & -> & (x & y & -> & Hx & Hy) & F). exists x, (y :: us). simpl. rewrite app_assoc. auto.
    + intros (u & us & -> & H & F). inversion F as [|? y ? us' Hy F']; subst. exists (u ++ y), us'. simpl. rewrite app_assoc. split; auto. split; auto. exists u, y. auto.
Qed.

Lemma row_inv (P : pnode -> Prop) ps p : (forall a b, P a -> P b -> P (PCat a b)) -> P p -> Forall P ps -> P (row p ps).
Proof. intros C. revert p. induction ps as [|q ps IH]; intros p H F; auto. inversion F; subst. apply IH; auto. Qed.

(** * The size of a tree *)

(** no run of more than [d] digits *)
Definition short (d : nat) (ts : list tok) : Prop := forall a ds b, ts = a ++ ds ++ b -> Forall is_digit ds -> (length ds <= d)%nat.

Lemma short_l d a b : short d (a ++ b) -> short d a.
Proof. intros H x ds y -> F. apply (H x ds (y ++ b)); auto. rewrite <- !app_assoc. auto. Qed.
Lemma short_r d a b : short d (a ++ b) -> short d b.
Proof. intros H x ds y -> F. apply (H (a ++ x) ds y); auto. rewrite <- app_assoc. auto. Qed.
Lemma short_c d a b : short d (a :: b) -> short d b.
Proof. apply (short_r d [a]). Qed.

Lemma number_short d ts v : number ts v -> Forall tok_ok ts -> short d ts -> 0 <= v < 10 ^ Z.of_nat d.
Proof.
  intros N F S. assert (X : Forall is_digit ts /\ 0 <= v < 10 ^ Z.of_nat (length ts)).
  { clear S. induction N as [c|ts v c N IH L].
    - split; [constructor; simpl; auto|]. inversion F; subst. simpl in *. lia.
    - apply Forall_app in F as [F1 F2]. destruct (IH F1) as (D & B). inversion F2 as [|? ? T _]; subst. simpl in T. split; [apply Forall_app; split; auto; constructor; simpl; auto|].
      rewrite app_length. cbn [length]. rewrite Nat2Z.inj_add, Z.pow_add_r by lia. change (10 ^ Z.of_nat 1) with 10. lia. }
  destruct X as (D & B). assert (length ts <= d)%nat by (apply (S [] ts []); [rewrite app_nil_r; auto|auto]).
  assert (10 ^ Z.of_nat (length ts) <= 10 ^ Z.of_nat d) by (apply Z.pow_le_mono_r; lia). lia.
Qed.

Section Size.
Variable I : icu.
Hypothesis IO : icu_ok I.
Variable d : nat.
Notation B := (10 ^ N.of_nat d)%N.

Lemma B_pos : (1 <= B)%N.
Proof. pose proof (N.pow_nonzero 10 (N.of_nat d)). lia. Qed.
Lemma B_Z : Z.of_N B = 10 ^ Z.of_nat d.
Proof. rewrite N2Z.inj_pow. rewrite nat_N_Z. auto. Qed.

Lemma quant_size us mn mx m : quant us mn mx m -> Forall tok_ok us -> short d us -> (RewriteProofs.weight mn mx <= B * N.of_nat (m + 1))%N.
Proof.
  intros Q F S. pose proof B_pos as P. pose proof B_Z as E.
  assert (W : forall v, 0 <= v < 10 ^ Z.of_nat d -> (Z.to_N v <= B)%N) by (intros v H; lia).
  unfold RewriteProofs.weight. destruct Q as [| | |ts v N|ts v N|ts v us w N N' L].
  - rewrite N.eqb_refl. lia.
  - rewrite N.eqb_refl. nia.
  - change (1 =? UNBOUNDED)%N with false. cbn iota. nia.
  - inversion F as [|? ? _ F']; subst. apply Forall_app in F' as [F1 F2]. apply short_c, short_l in S. pose proof (number_short d _ _ N F1 S) as V. apply W in V. destruct (_ =? _)%N; nia.
  - inversion F as [|? ? _ F']; subst. apply Forall_app in F' as [F1 F2]. apply short_c, short_l in S. pose proof (number_short d _ _ N F1 S) as V. apply W in V. rewrite N.eqb_refl. nia.
  - inversion F as [|? ? _ F']; subst. apply Forall_app in F' as [F1 F2]. inversion F2 as [|? ? _ F3]; subst. apply Forall_app in F3 as [F3 _]. apply short_c in S. pose proof (short_l _ _ _ S) as S1. apply short_r, short_c, short_l in S.
    pose proof (number_short d _ _ N F1 S1) as V. pose proof (number_short d _ _ N' F3 S) as V'. apply W in V, V'. destruct (_ =? _)%N; nia.
Qed.

Definition sized (ts : list tok) (t : pnode) (n : nat) : Prop := Forall tok_ok ts -> short d ts -> (total t <= B * N.of_nat n)%N.

Lemma sizes :
  (forall o ts o' t n, alt I o ts o' t n -> sized ts t n) /\
  (forall b o ts o' t n, concat I b o ts o' t n -> sized ts t n) /\
  (forall b o ts o' t n, rep I b o ts o' t n -> sized ts t n) /\
  (forall o ts o' t n, patom I o ts o' t n -> sized ts t n).
Proof.
  pose proof B_pos as P.
  assert (K : forall ts us, Forall tok_ok (ts ++ us) -> short d (ts ++ us) -> (Forall tok_ok ts /\ short d ts) /\ (Forall tok_ok us /\ short d us)).
  { intros ts us F S. apply Forall_app in F as [F1 F2]. pose proof (short_l _ _ _ S). pose proof (short_r _ _ _ S). auto. }
  assert (KC : forall k us, Forall tok_ok (k :: us) -> short d (k :: us) -> Forall tok_ok us /\ short d us).
  { intros k us F S. inversion F; subst. apply short_c in S. auto. }
  apply (alt_mut I (fun _ ts _ t n => sized ts t n) (fun _ _ ts _ t n => sized ts t n) (fun _ _ ts _ t n => sized ts t n) (fun _ ts _ t n => sized ts t n)); unfold sized.
  - auto.
  - intros b o ts o1 t n us o2 u m _ H1 _ H2 F S. destruct (K _ _ F S) as ((F1 & S1) & F2 & S2). destruct (KC _ _ F2 S2) as (F3 & S3). specialize (H1 F1 S1). specialize (H2 F3 S3). cbn [total]. nia.
  - intros o ts o1 us o2 t n _ _ H F S. destruct (K _ _ F S) as (_ & F2 & S2). auto.
  - auto.
  - intros b1 b2 o ts o1 t n us o2 u m _ H1 _ H2 _ F S. destruct (K _ _ F S) as ((F1 & S1) & F2 & S2). specialize (H1 F1 S1). specialize (H2 F2 S2). cbn [total]. nia.
  - intros b o ts o1 t n _ H F S. destruct (K _ _ F S) as ((F1 & S1) & _). specialize (H F1 S1). cbn [total]. nia.
  - intros b o ts o1 t n us o2 _ H _ F S. destruct (K _ _ F S) as ((F1 & S1) & _). auto.
  - auto.
  - intros o ts o' t n us mn mx m _ H Q F S. destruct (K _ _ F S) as ((F1 & S1) & F2 & S2). specialize (H F1 S1). pose proof (quant_size _ _ _ _ Q F2 S2). cbn [total]. nia.
  - intros o ts o' t n us mn mx m _ H Q F S. destruct (K _ _ F S) as ((F1 & S1) & F2 & S2). destruct (K _ _ F2 S2) as ((F3 & S3) & _). specialize (H F1 S1). pose proof (quant_size _ _ _ _ Q F3 S3). cbn [total]. nia.
  - intros o ts o' t n _ H F S. destruct (KC _ _ F S) as (F1 & S1). destruct (K _ _ F1 S1) as ((F2 & S2) & _). auto.
  - intros o k ts o' t n _ _ H F S. destruct (KC _ _ F S) as (F1 & S1). destruct (KC _ _ F1 S1) as (F2 & S2). destruct (K _ _ F2 S2) as (_ & F3 & S3). destruct (K _ _ F3 S3) as ((F4 & S4) & _). specialize (H F4 S4). cbn [total]. nia.
  - intros o k t n E F S. assert (T : (total t <= N.of_nat n)%N); [|nia]. inversion F as [|? ? K1 _]; subst.
    assert (CH : forall c, 0 <= c < 1114112 -> (x <- literal_node I o c ;; Ok (x, 1%nat)) = Ok (t, n) -> (total t <= N.of_nat n)%N).
    { intros c Hc E1. apply bind_ok in E1 as (x & El & [= <- <-]). destruct (literal_node_atom I IO o c x Hc El) as (a & -> & _). simpl. lia. }
    clear F S. destruct k as [c|c|c|b| | | | | | | | | |]; cbn [simple_atom] in E.
    + destruct (character (TP c)) as [x|] eqn:Ec; [injection E as E; apply (CH x); [apply (character_ok (TP c)); auto|exact E]|].
      destruct (c =? 46); [injection E as <- <-; simpl; lia|]. destruct (c =? 94); [injection E as <- <-; simpl; lia|]. destruct (c =? 36); [injection E as <- <-; simpl; lia|discriminate].
    + injection E as E. apply (CH c); auto.
    + injection E as E. apply (CH c); auto. simpl in K1. lia.
    + injection E as <- <-. simpl. lia.
    + injection E as <- <-. simpl. lia.
    + injection E as <- <-. simpl. lia.
    + injection E as <- <-. simpl. lia.
    + injection E as <- <-. simpl. lia.
    + injection E as <- <-. simpl. lia.
    + injection E as <- <-. simpl. lia.
    + discriminate.
    + injection E as <- <-. simpl. lia.
    + discriminate.
    + discriminate.
  - intros o ts c n H F S. cbn [cset_node total]. assert (1 <= n)%nat; [|nia].
    clear -H. assert (X : (forall ts c n, charclass I o ts c n -> (1 <= n)%nat) /\ (forall p b ts c n, cc_expr I o p b ts c n -> (1 <= n)%nat) /\ (forall p b ts c n, cc_elem I o p b ts c n -> (1 <= n)%nat)).
    { apply (class_mut I o (fun _ _ n => (1 <= n)%nat) (fun _ _ _ _ n => (1 <= n)%nat) (fun _ _ _ _ n => (1 <= n)%nat)); intros; lia. }
    destruct X as (X & _). eapply X; eauto.
Qed.
End Size.
