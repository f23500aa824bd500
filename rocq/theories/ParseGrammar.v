(** What holds of every tree the grammar derives: its leaves and bounds are well formed, and the number
    of nodes is bounded by the tokens. *)
From Verif Require Import Base RangeSetModel RangeSetProofs ByteSetModel ByteSetProofs UtfModel EscModel PatModel PatSpec EncModel EncProofs RewriteProofs BuildSpec BuildTree BuildEnc Thm_Rewrite ParseModel ParseSets.
Open Scope Z_scope.

(** Tokens as yylex makes them *)
Definition tok_ok (t : tok) : Prop :=
  match t with
  | TP c | TChar c => 0 <= c < 1114112
  | TDigit c => 48 <= c <= 57
  | TByte b => 0 <= b < 256
  | _ => True
  end.

(** One more than the largest number of nodes a token can add *)
Definition weight (t : tok) : nat :=
  match t with
  | TP c => if (c =? 94) || (c =? 36) then 3 else 2
  | TSmallB | TNonWord => 12
  | TStart | TEnd => 3
  | TMinus | TAnd | TXor => 4
  | _ => 2
  end.
Fixpoint weights (ts : list tok) : nat := match ts with [] => 0 | t :: r => weight t + weights r end.

Lemma weights_app a b : weights (a ++ b) = (weights a + weights b)%nat.
Proof. induction a; simpl; auto. lia. Qed.
Lemma weight_min t : (2 <= weight t)%nat.
Proof. destruct t; simpl; try lia. destruct (_ || _); lia. Qed.

Lemma safe_ok {A} (P : A -> Prop) r a : safe P r -> r = Ok a -> P a.
Proof. intros H ->. exact H. Qed.

Lemma tok_cp t c : tok_ok t -> (t = TP c \/ t = TChar c \/ t = TDigit c) -> 0 <= c < 1114112.
Proof. intros H [->|[->| ->]]; simpl in H; lia. Qed.

Lemma cc_char_ok first k a : tok_ok k -> cc_char first k = Some a -> 0 <= a < 1114112.
Proof.
  destruct k; simpl; intros H E; try discriminate; try (injection E as <-; lia).
  destruct (_ || _); [injection E as <-; auto|]. destruct first.
  - destruct (_ || _); [injection E as <-; auto|discriminate].
  - destruct (_ =? _); [injection E as <-; auto|discriminate].
Qed.
Lemma cc_char_weight first k a : cc_char first k = Some a -> (2 <= weight k)%nat.
Proof. intros _. apply weight_min. Qed.

Scheme charclass_min := Minimality for charclass Sort Prop
  with cc_expr_min := Minimality for cc_expr Sort Prop
  with cc_elem_min := Minimality for cc_elem Sort Prop.
Combined Scheme class_mut from charclass_min, cc_expr_min, cc_elem_min.

Scheme alt_min := Minimality for alt Sort Prop
  with concat_min := Minimality for concat Sort Prop
  with rep_min := Minimality for rep Sort Prop
  with patom_min := Minimality for patom Sort Prop.
Combined Scheme alt_mut from alt_min, concat_min, rep_min, patom_min.

Section Grammar.
Variable I : icu.
Hypothesis IO : icu_ok I.

Ltac fa := repeat match goal with
  | H : Forall _ (_ :: _) |- _ => inversion H; clear H; subst
  | H : Forall _ (_ ++ _) |- _ => apply Forall_app in H as [? ?]
  | H : Forall _ [] |- _ => clear H
  end.

Definition class_inv (ts : list tok) (c : cset) (n : nat) : Prop :=
  (n + 1 <= weights ts)%nat /\ ts <> [] /\ (Forall tok_ok ts -> cset_ok c).

Lemma class_invs o :
  (forall ts c n, charclass I o ts c n -> class_inv ts c n) /\
  (forall p b ts c n, cc_expr I o p b ts c n -> class_inv ts c n) /\
  (forall p b ts c n, cc_elem I o p b ts c n -> class_inv ts c n).
Proof.
  apply (class_mut I o (fun ts c n => class_inv ts c n) (fun _ _ ts c n => class_inv ts c n) (fun _ _ ts c n => class_inv ts c n)); unfold class_inv.
  - intros b ts c n c' _ (W & _ & K) E. split; [simpl; rewrite weights_app; simpl; lia|]. split; [discriminate|].
    intros F. fa. eapply safe_ok; [apply (finish_pos_safe I IO)|exact E]. auto.
  - intros b ts c n c' _ (W & _ & K) E. split; [simpl; rewrite weights_app; simpl; lia|]. split; [discriminate|].
    intros F. fa. eapply safe_ok; [apply (finish_neg_safe I IO)|exact E]. auto.
  - intros s v E. split; [simpl; lia|]. split; [discriminate|]. intros _. split; [eapply safe_ok; [apply (resolve_safe I IO)|exact E]|apply empty_wf].
  - intros pos b ts c n _ H. exact H.
  - intros pos b1 b2 op ts1 ts2 x y z n m _ (W1 & N1 & K1) _ (W2 & N2 & K2) _ E. split; [rewrite !weights_app; lia|].
    split; [destruct ts1; [congruence|discriminate]|]. intros F. fa. eapply safe_ok; [apply (combine_safe op x y)|exact E]; auto.
  - intros first k1 k2 a b c E1 E2 E. split; [cbn [weights]; pose proof (weight_min k1); pose proof (weight_min k2); lia|]. split; [discriminate|].
    intros F. fa. eapply safe_ok; [apply char_range_safe|exact E]; (eapply cc_char_ok; [|eassumption]; auto).
  - intros first k1 a ts c n c' E1 _ (W & N1 & K) E. split; [cbn [weights]; lia|]. split; [discriminate|].
    intros F. fa. eapply safe_ok; [apply char_dash_safe|exact E]; auto. (eapply cc_char_ok; [|eassumption]; auto).
  - intros first a b c E. split; [simpl; lia|]. split; [discriminate|]. intros F. fa. eapply safe_ok; [apply byte_range_safe|exact E]; auto.
  - intros first a ts c n c' _ (W & N1 & K) E. split; [cbn [weights]; lia|]. split; [discriminate|]. intros F. fa. eapply safe_ok; [apply byte_dash_safe|exact E]; auto.
  - intros first ts c n _ H. exact H.
  - intros first k a c E1 E. split; [simpl; pose proof (weight_min k); lia|]. split; [discriminate|]. intros F. fa. eapply safe_ok; [apply char_set_safe|exact E]. (eapply cc_char_ok; [|eassumption]; auto).
  - intros c E. split; [simpl; lia|]. split; [discriminate|]. intros F. eapply safe_ok; [apply char_set_safe|exact E]. lia.
  - intros first a c E. split; [simpl; lia|]. split; [discriminate|]. intros F. fa. eapply safe_ok; [apply byte_set_safe|exact E]. auto.
Qed.

(** A '{' with something before it and at least two tokens after it *)
Definition has_brace (ts : list tok) : Prop := exists a b, ts = a ++ TP 123 :: b /\ a <> [] /\ (2 <= length b)%nat.

Lemma has_brace_l a b : has_brace a -> has_brace (a ++ b).
Proof. intros (x & y & -> & N & L). exists x, (y ++ b). rewrite <- app_assoc. split; auto. split; auto. rewrite app_length. lia. Qed.
Lemma has_brace_r a b : has_brace b -> has_brace (a ++ b).
Proof. intros (x & y & -> & N & L). exists (a ++ x), y. rewrite app_assoc. split; auto. split; auto. destruct a; [auto|discriminate]. Qed.
Lemma has_brace_c a b : has_brace b -> has_brace (a :: b).
Proof. apply (has_brace_r [a]). Qed.

Lemma number_digits ts v : number ts v -> ts <> [] /\ (Forall tok_ok ts -> 0 <= v <= INT_MAX).
Proof.
  induction 1 as [d|ts v d N (NE & IH) L].
  - split; [discriminate|]. intros F. inversion F as [|? ? D _]; subst. simpl in D. unfold INT_MAX. lia.
  - split; [destruct ts; discriminate|]. intros F. apply Forall_app in F as [F1 F2]. inversion F2 as [|? ? D _]; subst. specialize (IH F1). simpl in D. lia.
Qed.

Lemma quant_inv us mn mx m : quant us mn mx m -> (m + 1 <= weights us)%nat /\ us <> [] /\
  (Forall tok_ok us -> (mn <= mx)%N /\ (mn < UNBOUNDED)%N /\ (mx < two32)%N) /\
  ((mn <> 0 \/ mx <> 0)%N \/ forall a, a <> [] -> has_brace (a ++ us)).
Proof.
  assert (HB : forall ts : list tok, (2 <= length ts)%nat -> forall a, a <> [] -> has_brace (a ++ TP 123 :: ts)).
  { intros ts L a N. exists a, ts. auto. }
  assert (W : forall ts : list tok, ts <> [] -> (2 <= weights ts)%nat). { intros [|t ts] H; [congruence|]. simpl. pose proof (weight_min t). lia. }
  assert (LN : forall ts : list tok, ts <> [] -> (1 <= length ts)%nat). { intros [|t ts] H; [congruence|]. simpl. lia. }
  destruct 1 as [| | |ts v N|ts v N|ts v us w N N' L].
  1-3: split; [simpl; lia|]; split; [discriminate|]; split; [intros _; unfold UNBOUNDED, two32; lia|left; unfold UNBOUNDED; lia].
  - destruct (number_digits _ _ N) as (NE & B). split; [simpl; rewrite weights_app; simpl; specialize (W ts NE); lia|]. split; [discriminate|].
    split; [intros F; inversion F as [|? ? _ F0]; apply Forall_app in F0 as [F1 _]; specialize (B F1); unfold UNBOUNDED, two32, INT_MAX in *; lia|]. right. apply HB. rewrite app_length. specialize (LN ts NE). simpl. lia.
  - destruct (number_digits _ _ N) as (NE & B). split; [simpl; rewrite weights_app; simpl; specialize (W ts NE); lia|]. split; [discriminate|].
    split; [intros F; inversion F as [|? ? _ F0]; apply Forall_app in F0 as [F1 _]; specialize (B F1); unfold UNBOUNDED, two32, INT_MAX in *; lia|]. right. apply HB. rewrite app_length. specialize (LN ts NE). simpl. lia.
  - destruct (number_digits _ _ N) as (NE & B). destruct (number_digits _ _ N') as (NE' & B').
    split; [simpl; rewrite weights_app; simpl; rewrite weights_app; simpl; specialize (W ts NE); lia|]. split; [discriminate|].
    split; [intros F; inversion F as [|? ? _ F0]; apply Forall_app in F0 as [F1 F2]; inversion F2 as [|? ? _ F3]; apply Forall_app in F3 as [F3 _]; specialize (B F1); specialize (B' F3); unfold UNBOUNDED, two32, INT_MAX in *; lia|]. right. apply HB. rewrite app_length. specialize (LN ts NE). simpl. lia.
Qed.

Lemma literal_node_atom o c t : 0 <= c < 1114112 -> literal_node I o c = Ok t -> exists a, t = PAtom a /\ atom_ok a.
Proof.
  intros H. unfold literal_node. destruct (cased o); [intros [= <-]; exists (ALit c); split; simpl; auto|].
  destruct (set_spec MAXCP [] (Z.to_N c) true maxcp_pos (canon_empty _)) as (v & -> & C & _); [unfold MAXCP; lia|]. cbn [bind].
  pose proof (case_safe I IO o v C) as S. destruct (caseDesensitize I v o) as [[w b]| | |]; try discriminate. cbn [bind fst snd] in *. intros [= <-].
  destruct b; [exists (AClass w bs_empty true)|exists (ALit c)]; split; simpl; auto. split; [exact S|apply empty_wf].
Qed.

Lemma character_ok t c : tok_ok t -> character t = Some c -> 0 <= c < 1114112.
Proof.
  destruct t; simpl; intros H E; try discriminate; try (injection E as <-; lia). destruct (_ || _); [injection E as <-; auto|discriminate].
Qed.

Definition node_ok (t : pnode) : Prop := bounds_ok t /\ forall a, In a (atoms t) -> atom_ok a.

Lemma node_atom a : atom_ok a -> node_ok (PAtom a).
Proof. intros H. split; [exact Logic.I|]. intros b [<-|[]]. auto. Qed.
Lemma node_look k t : node_ok t -> node_ok (PLook k t).
Proof. intros (B & A). split; auto. Qed.
Lemma node_cat l r : node_ok l -> node_ok r -> node_ok (PCat l r).
Proof. intros (B & A) (B' & A'). split; [split; auto|]. simpl. intros a H. apply in_app_iff in H as [H|H]; auto. Qed.
Lemma node_alt l r : node_ok l -> node_ok r -> node_ok (PAlt l r).
Proof. intros (B & A) (B' & A'). split; [split; auto|]. simpl. intros a H. apply in_app_iff in H as [H|H]; auto. Qed.

Lemma word_boundary_spec b : exists t, word_boundary b = Ok t /\ node_ok t /\ no_zero t.
Proof.
  unfold word_boundary. destruct (flip_spec MAXCP word_class maxcp_pos word_canon) as (w & -> & C & _). cbn [bind]. eexists. split; [reflexivity|].
  assert (N1 : node_ok (class_node word_class)) by (apply node_atom; split; [apply word_canon|apply empty_wf]).
  assert (N2 : node_ok (class_node w)) by (apply node_atom; split; [auto|apply empty_wf]).
  split.
  - destruct b; apply node_alt; apply node_cat; apply node_look; auto.
  - destruct b; simpl; auto.
Qed.

Lemma simple_inv o k t n : simple_atom I o k = Some (Ok (t, n)) -> (n + 1 <= weight k)%nat /\ (tok_ok k -> node_ok t) /\ (tok_ok k -> no_zero t).
Proof.
  assert (LB : node_ok (class_node linebreak)) by (apply node_atom; split; [apply linebreak_canon|apply empty_wf]).
  assert (CH : forall k c, character k = Some c -> (x <- literal_node I o c ;; Ok (x, 1%nat)) = Ok (t, n) -> (2 <= weight k)%nat ->
    (n + 1 <= weight k)%nat /\ (tok_ok k -> node_ok t) /\ (tok_ok k -> no_zero t)).
  { clear k. intros k c Ec E W. apply bind_ok in E as (x & El & [= <- <-]). split; auto. split; intros K.
    - destruct (literal_node_atom o c x) as (a & -> & Ha); auto. { eapply character_ok; eauto. } apply node_atom. auto.
    - destruct (literal_node_atom o c x) as (a & -> & Ha); auto. { eapply character_ok; eauto. } exact Logic.I. }
  destruct k as [c|c|c|b| | | | | | | | | |]; cbn [simple_atom].
  - destruct (character (TP c)) as [d|] eqn:Ec; [intros [= E]; eapply CH; eauto; apply weight_min|]. cbn [weight].
    destruct (Z.eqb_spec c 46) as [->|].
    { intros [= <- <-]. split; [simpl; lia|]. split; intros _; [apply node_atom; exact Logic.I|exact Logic.I]. }
    destruct (Z.eqb_spec c 94) as [->|].
    { intros [= <- <-]. split; [simpl; lia|]. split; intros _; [apply node_look; auto|exact Logic.I]. }
    destruct (Z.eqb_spec c 36) as [->|]; [|discriminate].
    intros [= <- <-]. split; [simpl; lia|]. split; intros _; [apply node_look; auto|exact Logic.I].
  - intros [= E]. eapply CH; eauto; simpl; auto.
  - intros [= E]. eapply CH; eauto; simpl; auto.
  - intros [= <- <-]. split; [simpl; lia|]. split; [|exact (fun _ => Logic.I)]. intros H. apply node_atom. simpl in *. lia.
  - intros [= <- <-]. split; [simpl; lia|]. split; intros _; [apply node_cat; apply node_atom; exact Logic.I|simpl; auto].
  - intros [= <- <-]. split; [simpl; lia|]. split; intros _; [apply node_cat; apply node_atom; exact Logic.I|simpl; auto].
  - intros [= <- <-]. split; [simpl; lia|]. split; intros _; [apply node_cat; apply node_atom; exact Logic.I|simpl; auto].
  - intros [= <- <-]. split; [simpl; lia|]. split; intros _; [apply node_look, node_atom; exact Logic.I|exact Logic.I].
  - intros [= <- <-]. split; [simpl; lia|]. split; intros _; [apply node_look, node_atom; exact Logic.I|exact Logic.I].
  - destruct (word_boundary_spec true) as (x & -> & N1 & N2). intros [= <- <-]. split; [simpl; lia|]. auto.
  - discriminate.
  - destruct (word_boundary_spec false) as (x & -> & N1 & N2). intros [= <- <-]. split; [simpl; lia|]. auto.
  - discriminate.
  - discriminate.
Qed.

Definition tree_inv (ts : list tok) (t : pnode) (n : nat) : Prop :=
  (n + 1 <= weights ts)%nat /\ ts <> [] /\ (Forall tok_ok ts -> node_ok t) /\ (Forall tok_ok ts -> no_zero t \/ has_brace ts).

Lemma switch_ne o ts o' : switch o ts o' -> ts <> [].
Proof. destruct 1; discriminate. Qed.

Lemma tree_invs :
  (forall o ts o' t n, alt I o ts o' t n -> tree_inv ts t n) /\
  (forall b o ts o' t n, concat I b o ts o' t n -> tree_inv ts t n) /\
  (forall b o ts o' t n, rep I b o ts o' t n -> tree_inv ts t n) /\
  (forall o ts o' t n, patom I o ts o' t n -> tree_inv ts t n).
Proof.
  assert (Q : forall o ts o' t n us mn mx m g, patom I o ts o' t n -> tree_inv ts t n -> quant us mn mx m -> tree_inv (ts ++ us) (PRep g t mn mx) (n + m + 1)).
  { intros o ts o' t n us mn mx m g _ (W & NE & K & Z) HQ. destruct (quant_inv _ _ _ _ HQ) as (Wq & NEq & Bq & Zq). unfold tree_inv.
    split; [rewrite weights_app; lia|]. split; [destruct ts; [congruence|discriminate]|]. split; intros F; apply Forall_app in F as [H H0].
    - destruct (K H) as (B & A). destruct (Bq H0) as (B1 & B2 & B3). split; [simpl; auto|]. exact A.
    - destruct (Z H) as [Hz|Hz]; [|right; apply has_brace_l; auto]. destruct Zq as [Zq|Zq]; [left; split; auto|right; apply Zq; auto]. }
  apply (alt_mut I (fun _ ts _ t n => tree_inv ts t n) (fun _ _ ts _ t n => tree_inv ts t n) (fun _ _ ts _ t n => tree_inv ts t n) (fun _ ts _ t n => tree_inv ts t n)); unfold tree_inv.
  - auto.
  - intros b o ts o1 t n us o2 u m _ (W1 & N1 & K1 & Z1) _ (W2 & N2 & K2 & Z2). split; [rewrite weights_app; simpl; lia|].
    split; [destruct ts; discriminate|]. split; intros F; apply Forall_app in F as [H F2]; inversion F2 as [|? ? _ H3]; subst.
    + apply node_alt; auto.
    + destruct (Z1 H) as [Y1|Y1]; [|right; apply has_brace_l; auto]. destruct (Z2 H3) as [Y2|Y2]; [left; split; auto|right; apply has_brace_r, has_brace_c; auto].
  - intros o ts o1 us o2 t n S _ (W & NE & K & Z). split; [rewrite weights_app; lia|]. split; [destruct ts; [exfalso; eapply switch_ne; eauto|discriminate]|].
    split; intros F; apply Forall_app in F as [H H0]; auto. destruct (Z H0) as [Y|Y]; auto. right. apply has_brace_r; auto.
  - auto.
  - intros b1 b2 o ts o1 t n us o2 u m _ (W1 & N1 & K1 & Z1) _ (W2 & N2 & K2 & Z2) _. split; [rewrite weights_app; lia|].
    split; [destruct ts; [congruence|discriminate]|]. split; intros F; apply Forall_app in F as [H H0].
    + apply node_cat; auto.
    + destruct (Z1 H) as [Y1|Y1]; [|right; apply has_brace_l; auto]. destruct (Z2 H0) as [Y2|Y2]; [left; split; auto|right; apply has_brace_r; auto].
  - intros b o ts o1 t n _ (W & NE & K & Z). split; [rewrite weights_app; simpl; lia|]. split; [destruct ts; discriminate|]. split; intros F; fa.
    + apply node_look; auto.
    + left. exact Logic.I.
  - intros b o ts o1 t n us o2 _ (W & NE & K & Z) S. split; [rewrite weights_app; lia|]. split; [destruct ts; [congruence|discriminate]|].
    split; intros F; apply Forall_app in F as [H H0]; auto. destruct (Z H) as [Y|Y]; auto. right. apply has_brace_l; auto.
  - auto.
  - intros o ts o' t n us mn mx m H1 H2 H3. apply (Q o ts o' t n us mn mx m true H1 H2 H3).
  - intros o ts o' t n us mn mx m H1 H2 H3. destruct (Q o ts o' t n us mn mx m false H1 H2 H3) as (W & NE & K & Z). rewrite app_assoc.
    split; [rewrite weights_app; simpl; lia|]. split; [destruct (ts ++ us); [congruence|discriminate]|]. split; intros F; apply Forall_app in F as [F _]; auto.
    destruct (Z F) as [Y|Y]; auto. right. apply has_brace_l; auto.
  - intros o ts o' t n _ (W & NE & K & Z). split; [simpl; rewrite weights_app; simpl; lia|]. split; [discriminate|]. split; intros F; inversion F as [|? ? _ F2]; subst; apply Forall_app in F2 as [H _]; auto.
    destruct (Z H) as [Y|Y]; auto. right. apply has_brace_c, has_brace_l; auto.
  - intros o k ts o' t n Hk _ (W & NE & K & Z). split; [simpl; rewrite !weights_app; simpl; lia|]. split; [discriminate|]. split; intros F.
    + apply node_look. apply K. fa. auto.
    + left. exact Logic.I.
  - intros o k t n E. destruct (simple_inv o k t n E) as (W & K & Z). split; [simpl; lia|]. split; [discriminate|]. split; intros F; fa; auto.
  - intros o ts c n HC. destruct (proj1 (class_invs o) ts c n HC) as (W & NE & K). split; auto. split; auto. split; intros F.
    + apply node_atom. apply K. auto.
    + left. exact Logic.I.
Qed.
End Grammar.
