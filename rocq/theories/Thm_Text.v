(** C54: how the text of a pattern is cut into tokens, and what each escape stands for. *)
From Coq Require Import Ascii String.
From Verif Require Import Base RangeSetModel UtfModel UtfProofs EscModel Thm_Esc PatModel PatSpec EncModel EncProofs Thm_Enc BuildEnc ParseModel ParseSets ParseGrammar ParseRun ParseText ParseFixed Thm_Parse Thm_Fixed Thm_Class Thm_Meaning.
Import PatSpec.
Import ListNotations.
Open Scope list_scope.
Open Scope Z_scope.

Definition code (a : Ascii.ascii) : Z := Z.of_nat (nat_of_ascii a).
Definition chars (s : string) : list Z := map code (list_ascii_of_string s).
Definition begins (s : string) (l : list Z) : Prop := firstn (String.length s) l = chars s.

(** * The text of each token *)

Open Scope string_scope.
(** These stand for themselves after a backslash. *)
Definition quotable : list Z := chars "|()?+*.[]^$-{}&~<=!\".
Definition escapes : list (string * tok) :=
  [("\a", TChar 7); ("\e", TChar 27); ("\f", TChar 12); ("\n", TChar 10); ("\r", TChar 13); ("\t", TChar 9);
   ("\d", TSet (SDigit false)); ("\D", TSet (SDigit true)); ("\s", TSet (SSpace false)); ("\S", TSet (SSpace true));
   ("\h", TSet (SHoriz false)); ("\H", TSet (SHoriz true)); ("\v", TSet (SVert false)); ("\V", TSet (SVert true));
   ("\w", TSet (SWord false)); ("\W", TSet (SWord true));
   ("\A", TStart); ("\Z", TEnd); ("\B", TNonWord); ("\b", TSmallB); ("\K", TKill);
   ("--", TMinus); ("&&", TAnd); ("~~", TXor)].
(** Tokens of their own; [a] and [i] are switches in some places and characters in others. *)
Definition signs : list Z := chars "ai|()?+*.[]^${},<=!".

(** A name or property as it is looked up: its characters are bytes, but one character that is not a
    byte may come last and is not looked at. *)
Inductive looked_up : list Z -> list Z -> Prop :=
| lu_all n : Forall (fun c => 0 <= c <= 255) n -> looked_up n n
| lu_last n c : Forall (fun c => 0 <= c <= 255) n -> ~ 0 <= c <= 255 -> looked_up (n ++ [c]) n.

Definition code_point (ds : list Z) (v : Z) : Prop := (1 <= length ds <= 6)%nat /\ numeral digit 16 ds v /\ v <= 1114111.

Section Reading.
Variable I : icu.

(** [piece p r k]: before the text [r], the text [p] is the token [k]. *)
Inductive piece : list Z -> list Z -> tok -> Prop :=
| pc_quoted c r : In c quotable -> piece (chars "\" ++ [c]) r (TChar c)
| pc_escape s k r : In (s, k) escapes -> piece (chars s) r k
| pc_hex a b v r : numeral digit 16 [a; b] v -> piece (chars "\x" ++ [a; b]) r (TChar v)
| pc_hex_braces ds v r : code_point ds v -> piece (chars "\x{" ++ ds ++ chars "}") r (TChar v)
| pc_code_point ds v r : code_point ds v -> piece (chars "\N{U+" ++ ds ++ chars "}") r (TChar v)
| pc_name n m r : ~ In (code "}") n -> ~ begins "U+" n -> looked_up n m -> 0 <= ic_name I m -> piece (chars "\N{" ++ n ++ chars "}") r (TChar (ic_name I m))
| pc_byte a b v r : numeral digit 16 [a; b] v -> piece (chars "\z" ++ [a; b]) r (TByte v)
| pc_octal ds v r : (1 <= length ds <= 3)%nat -> numeral odigit 8 ds v -> v <= 255 ->
    (length ds = 3%nat \/ forall c t d, r = c :: t -> ~ odigit c d) -> piece (chars "\" ++ ds) r (TChar v)
| pc_property c n m r : In c (chars "pP") -> ~ In (code "}") n -> looked_up n m ->
    piece (chars "\" ++ c :: chars "{" ++ n ++ chars "}") r (TSet (SProperty (chars "\" ++ c :: chars "{" ++ m ++ chars "}")))
| pc_sign c r : In c signs -> piece [c] r (TP c)
| pc_twice c r : In c (chars "&~") -> ~ (exists t, r = c :: t) -> piece [c] r (TChar c)
| pc_last_hyphen r : r = [] \/ begins "]" r -> piece (chars "-") r (TChar (code "-"))
| pc_hyphen r : r <> [] -> ~ begins "]" r -> ~ begins "-" r -> piece (chars "-") r (TP (code "-"))
| pc_digit c r : In c (chars "0123456789") -> piece [c] r (TDigit c)
| pc_other c r : 1 <= c -> ~ In c signs -> ~ In c (chars "&~-\0123456789") -> piece [c] r (TChar c).

Inductive cut_into : list Z -> list tok -> Prop :=
| ci_end : cut_into [] []
| ci_next p r k ts : piece p r k -> cut_into r ts -> cut_into (p ++ r) (k :: ts).
Close Scope string_scope.

(** * Proofs *)

Lemma to_brace_spec l : match to_brace l with
  | Some (n, r) => l = n ++ 125 :: r /\ ~ In 125 n
  | None => ~ In 125 l
  end.
Proof.
  induction l as [|c l IH]; cbn [to_brace]; [auto|]. destruct (Z.eqb_spec c 125) as [->|N]; [auto|].
  destruct (to_brace l) as [[n r]|]; cbn [option_map fst snd].
  - destruct IH as (-> & H). split; auto. intros [E|E]; auto.
  - intros [E|E]; auto.
Qed.
Lemma to_brace_ok n r : ~ In 125 n -> to_brace (n ++ 125 :: r) = Some (n, r).
Proof.
  induction n as [|c n IH]; intros H; cbn [app to_brace]; [reflexivity|]. destruct (Z.eqb_spec c 125) as [->|N]; [destruct H; left; auto|]. rewrite IH; [reflexivity|]. intros K. apply H. right. auto.
Qed.

Lemma to_ascii_spec l m : to_ascii l = Some m <-> looked_up l m.
Proof.
  split.
  - revert m. induction l as [|c l IH]; cbn [to_ascii]; intros m E; [injection E as <-; constructor; auto|].
    destruct ((0 <=? c) && (c <=? 255)) eqn:B.
    + destruct (to_ascii l) as [m'|]; [|discriminate]. injection E as <-. destruct (IH _ eq_refl); [constructor|apply (lu_last (c :: n))]; auto; constructor; auto; lia.
    + destruct l; [|discriminate]. injection E as <-. apply (lu_last []); auto. lia.
  - intros [n F|n c F N]; (induction n as [|x n IH]; cbn [to_ascii app]; [|inversion F as [|? ? X F']; subst; destruct ((0 <=? x) && (x <=? 255)) eqn:B; [rewrite IH; auto|lia]]).
    + reflexivity.
    + destruct ((0 <=? c) && (c <=? 255)) eqn:B; [lia|reflexivity].
Qed.

Lemma in_spec c l : existsb (Z.eqb c) l = true <-> In c l.
Proof. rewrite existsb_exists. split; [intros (x & H & E); apply Z.eqb_eq in E; subst; auto|]. intros H. exists c. split; auto. apply Z.eqb_refl. Qed.

Lemma quotable_spec c : is_escaped_meta c = true <-> In c quotable.
Proof. apply (in_spec c quotable). Qed.
Lemma signs_spec c : is_punct c = true <-> In c signs.
Proof. apply (in_spec c signs). Qed.

Lemma numeral_nonneg (dig : Z -> Z -> Prop) base s v : 0 <= base -> (forall c d, dig c d -> 0 <= d) -> numeral dig base s v -> 0 <= v.
Proof. intros B D. induction 1 as [|s c v d H IH K]; [lia|]. specialize (D _ _ K). nia. Qed.
Lemma hex_nonneg ds v : numeral digit 16 ds v -> 0 <= v.
Proof. apply numeral_nonneg; [lia|]. intros c d D. apply digit_range in D. lia. Qed.

Lemma hex_ok a b v r : numeral digit 16 [a; b] v -> parseHexByte (a :: b :: r) = (v, r) /\ 0 <= v.
Proof.
  intros H. destruct (parseHexByte (a :: b :: r)) as [w s] eqn:E. destruct (hex_byte_value _ _ _ E) as [_ K]. destruct (K a b r v eq_refl H) as (-> & ->). split; auto. apply (hex_nonneg _ _ H).
Qed.

Lemma cp_ok ds v r : code_point ds v -> parseHexCodePoint (ds ++ 125 :: r) = (v, r) /\ 0 <= v.
Proof.
  intros (L & H & M). destruct (parseHexCodePoint (ds ++ 125 :: r)) as [w s] eqn:E. destruct (hex_code_point_value _ _ _ E) as [_ K]. destruct (K ds r v eq_refl L H M) as (-> & ->). split; auto.
  apply (numeral_nonneg digit 16 ds v); [lia| |auto]. intros c d D. apply digit_range in D. lia.
Qed.
Lemma cp_conv s v r : parseHexCodePoint s = (v, r) -> 0 <= v -> exists ds, s = ds ++ 125 :: r /\ code_point ds v.
Proof. intros E H. destruct (hex_code_point_value _ _ _ E) as [K _]. destruct (K H) as (ds & -> & L & N & M). exists ds. split; auto. split; auto. Qed.

Lemma numeral_fun ds v w : numeral odigit 8 ds v -> numeral odigit 8 ds w -> v = w.
Proof.
  intros H. revert w. induction H as [|s c v d H IH D]; intros w K.
  - inversion K as [|? ? ? ? ? ? E]; auto. destruct s; discriminate.
  - inversion K as [E|? ? v' d' H' D' E]; [destruct s; discriminate|]. apply app_inj_tail in E as [-> ->]. rewrite (IH _ H'). inversion D; inversion D'; subst. lia.
Qed.

Lemma oct_ok ds v r : (1 <= length ds <= 3)%nat -> numeral odigit 8 ds v -> v <= 255 -> (length ds = 3%nat \/ forall c t d, r = c :: t -> ~ odigit c d) ->
  parseOctByte (ds ++ r) = (v, r) /\ 0 <= v.
Proof.
  intros L H M D. destruct (parseOctByte (ds ++ r)) as [w s] eqn:E. destruct (oct_byte_value _ _ _ E) as (es & u & Es & L' & H' & -> & D').
  assert (P : 0 <= v) by (apply (numeral_nonneg odigit 8 ds v); [lia|intros c d K; apply odigit_range in K; lia|auto]).
  assert (X : es = ds /\ s = r).
  { pose proof (numeral_digits _ _ _ _ H) as F. pose proof (numeral_digits _ _ _ _ H') as F'.
    assert (G : forall es ds s r, ds ++ r = es ++ s -> Forall (fun c => exists d, odigit c d) ds -> Forall (fun c => exists d, odigit c d) es -> (length ds <= 3)%nat -> (length es <= 3)%nat ->
      forall k, (k + length ds <= 3)%nat -> (k + length es <= 3)%nat ->
      (k + length ds = 3%nat \/ forall c t d, r = c :: t -> ~ odigit c d)%nat -> (k + length es = 3%nat \/ match s with [] => True | c :: _ => forall d, ~ odigit c d end)%nat -> es = ds /\ s = r).
    { clear. induction es as [|e es IH]; intros ds s r E F F' L L' k K K' D D'.
      - destruct ds as [|x ds]; [auto|]. cbn [app length] in *. subst s. inversion F as [|? ? [d X] _]; subst. destruct D' as [D'|D']; [lia|]. destruct (D' d X).
      - destruct ds as [|x ds]; cbn [app length] in *.
        + subst r. inversion F' as [|? ? [d X] _]; subst. destruct D as [D|D]; [lia|]. destruct (D e (es ++ s) d eq_refl X).
        + injection E as -> E. inversion F; inversion F'; subst. destruct (IH ds s r E) with (k := S k) as (-> & ->); auto; try lia; [destruct D; auto; left; lia|destruct D'; auto; left; lia]. }
    apply (G es ds s r) with (k := 0%nat); auto; lia. }
  destruct X as (-> & ->). rewrite (numeral_fun _ _ _ H' H). destruct (Z.ltb_spec 255 v); [lia|]. auto.
Qed.

Lemma single_ok mk v r : 0 <= v -> singleton mk (v, r) = (mk v, r).
Proof. intros H. cbn [singleton]. destruct (Z.ltb_spec v 0); [lia|reflexivity]. Qed.

Lemma esc_x a u : consumeEscape I (120 :: a :: u) = if a =? 123 then singleton TChar (parseHexCodePoint u) else singleton TChar (parseHexByte (a :: u)).
Proof. reflexivity. Qed.
Lemma esc_z u : consumeEscape I (122 :: u) = singleton TByte (parseHexByte u).
Proof. reflexivity. Qed.
Lemma esc_N u : consumeEscape I (78 :: u) = singleton TChar (parseNamedCodePoint I u).
Proof. reflexivity. Qed.
Lemma esc_p c u : In c [112; 80] -> consumeEscape I (c :: u) = match parseProperty (92 :: c :: u) with Some (p, r) => (TSet (SProperty p), r) | None => (TBad, u) end.
Proof. intros [<-|[<-|[]]]; reflexivity. Qed.
Lemma esc_o c u : 48 <= c <= 55 -> consumeEscape I (c :: u) = singleton TChar (parseOctByte (c :: u)).
Proof.
  intros H. assert (X : c = 48 \/ c = 49 \/ c = 50 \/ c = 51 \/ c = 52 \/ c = 53 \/ c = 54 \/ c = 55) by lia. destruct X as [->|[->|[->|[->|[->|[->|[->| ->]]]]]]]; reflexivity.
Qed.

Lemma named_ok t : (forall u, t <> 85 :: 43 :: u) -> parseNamedCodePoint I (123 :: t) = match prepareStringForICU t with None => (-1, t) | Some (name, r') => (ic_name I name, r') end.
Proof.
  intros H. unfold parseNamedCodePoint. change (negb (123 =? 123)) with false. cbv iota. destruct t as [|a [|b t]]; auto.
  destruct (Z.eqb_spec a 85) as [->|]; cbn [andb]; auto. destruct (Z.eqb_spec b 43) as [->|]; auto. destruct (H t eq_refl).
Qed.

Lemma prepare_ok n m r : ~ In 125 n -> looked_up n m -> prepareStringForICU (n ++ 125 :: r) = Some (m, r).
Proof. intros N L. unfold prepareStringForICU. rewrite to_brace_ok by auto. apply to_ascii_spec in L. rewrite L. reflexivity. Qed.
Lemma prepare_conv l m r : prepareStringForICU l = Some (m, r) -> exists n, l = n ++ 125 :: r /\ ~ In 125 n /\ looked_up n m.
Proof.
  unfold prepareStringForICU. pose proof (to_brace_spec l) as H. destruct (to_brace l) as [[n r']|]; [|discriminate]. destruct (to_ascii n) as [m'|] eqn:E; [|discriminate]. intros X. injection X as -> ->. apply to_ascii_spec in E. exists n. tauto.
Qed.

Lemma looked_up_app a n m : Forall (fun c => 0 <= c <= 255) a -> (looked_up (a ++ n) (a ++ m) <-> looked_up n m).
Proof.
  intros F. rewrite <- !to_ascii_spec. induction F as [|c a C F IH]; [tauto|]. cbn [app to_ascii]. destruct ((0 <=? c) && (c <=? 255)) eqn:B; [|lia]. rewrite <- IH.
  destruct (to_ascii (a ++ n)) as [x|]; cbn [option_map]; (split; intros E; [injection E as E; subst; auto|]; try discriminate; injection E as ->; auto) || (split; discriminate).
Qed.

Lemma escape_ok p r k : piece (92 :: p) r k -> consumeEscape I (p ++ r) = (k, r).
Proof.
  intros H. remember (92 :: p) as q eqn:Ep. destruct H as [c r Q|s k r Q|a b v r Q|ds v r Q|ds v r Q|n m r Q B LU V|a b v r Q|ds v r L Q M D|c n m r C Q LU|c r Q|c r Q D|r Q|r Q1 Q2 Q3|c r Q|c r C Q1 Q2].
  - injection Ep as <-. cbn [app consumeEscape]. rewrite (proj2 (quotable_spec c) Q). reflexivity.
  - unfold escapes in Q. repeat (destruct Q as [E|Q]; [injection E as <- <-; vm_compute in Ep; try discriminate; injection Ep as <-; reflexivity|]). destruct Q.
  - injection Ep as <-. destruct (hex_ok a b v r Q) as (E & P). cbn [app]. rewrite esc_x. destruct (Z.eqb_spec a 123) as [->|NA].
    { pose proof (numeral_digits _ _ _ _ Q) as F. inversion F as [|? ? [d D] _]; subst. inversion D; lia. }
    rewrite E. apply single_ok. auto.
  - injection Ep as <-. destruct (cp_ok ds v r Q) as (E & P). cbn [app]. rewrite esc_x. cbn [Z.eqb Pos.eqb]. rewrite <- app_assoc. change (chars "}"%string ++ r) with (125 :: r). rewrite E. apply single_ok. auto.
  - injection Ep as <-. destruct (cp_ok ds v r Q) as (E & P). cbn [app]. rewrite esc_N. cbn [parseNamedCodePoint]. cbn [Z.eqb Pos.eqb negb andb]. rewrite <- app_assoc. change (chars "}"%string ++ r) with (125 :: r). rewrite E. apply single_ok. auto.
  - injection Ep as <-. cbn [app]. rewrite esc_N, <- app_assoc. change (chars "}"%string ++ r) with (125 :: r). rewrite named_ok.
    + rewrite (prepare_ok n m r Q LU). apply single_ok. auto.
    + intros u E. apply B. unfold begins. destruct n as [|a [|b n]]; cbn [app] in E; [discriminate|discriminate|]. injection E as -> -> _. reflexivity.
  - injection Ep as <-. destruct (hex_ok a b v r Q) as (E & P). cbn [app]. rewrite esc_z, E. apply single_ok. auto.
  - injection Ep as <-. destruct (oct_ok ds v r L Q M D) as (E & P). destruct ds as [|c ds]; [simpl in L; lia|]. pose proof (numeral_digits _ _ _ _ Q) as F. inversion F as [|? ? [d K] _]; subst. inversion K; subst. cbn [app] in *. rewrite esc_o by auto. rewrite E. apply single_ok. auto.
  - injection Ep as <-. match goal with |- consumeEscape I ?x = _ => replace x with (c :: 123 :: n ++ 125 :: r) by (cbn [app]; rewrite <- !app_assoc; reflexivity) end. rewrite esc_p by exact C. cbn [parseProperty]. cbn [Z.eqb Pos.eqb negb].
    assert (X : prepareStringForICU ((92 :: c :: 123 :: n) ++ 125 :: r) = Some (92 :: c :: 123 :: m, r)).
    { apply prepare_ok. - intros [X|[X|[X|X]]]; try discriminate; auto. subst. destruct C as [C|[C|[]]]; discriminate.
      - change (92 :: c :: 123 :: n) with ([92; c; 123] ++ n). change (92 :: c :: 123 :: m) with ([92; c; 123] ++ m). apply looked_up_app; auto. constructor; [lia|]. constructor; [destruct C as [<-|[<-|[]]]; vm_compute; split; discriminate|]. constructor; [lia|constructor]. }
    cbn [app] in X. rewrite X. reflexivity.
  - exfalso. injection Ep as -> <-. revert Q. vm_compute. intuition discriminate.
  - exfalso. injection Ep as -> <-. revert Q. vm_compute. intuition discriminate.
  - discriminate.
  - discriminate.
  - exfalso. injection Ep as -> <-. revert Q. vm_compute. intuition discriminate.
  - exfalso. injection Ep as -> <-. apply Q2. vm_compute. auto 10.
Qed.

Lemma yylex_ok p r k : piece p r k -> exists c t, p ++ r = c :: t /\ yylex I false c t = (k, r) /\ k <> TBad.
Proof.
  intros H. destruct p as [|c p]; [exfalso; inversion H as [| s k' r' Q Ep| | | | | | | | | | | | | ]; subst|].
  - unfold escapes in Q. repeat (destruct Q as [E|Q]; [injection E as <- <-; discriminate Ep|]). destruct Q.
  - exists c, (p ++ r). split; auto. split; [|inversion H as [| s k' r' Q Ep| | | | | | | | | | | | | ]; try discriminate; subst; unfold escapes in Q; repeat (destruct Q as [E|Q]; [injection E as <- <-; discriminate|]); destruct Q].
    destruct (Z.eqb_spec c 92) as [->|N].
    { rewrite <- (escape_ok _ _ _ H). reflexivity. }
    remember (c :: p) as q eqn:Ep. destruct H as [c' r Q|s k r Q|a b v r Q|ds v r Q|ds v r Q|n m r Q B LU V|a b v r Q|ds v r L Q M D|c' n m r C Q LU|c' r Q|c' r Q D|r Q|r Q1 Q2 Q3|c' r Q|c' r C Q1 Q2]; try (exfalso; injection Ep as <- <-; apply N; reflexivity).
    + unfold escapes in Q. repeat (destruct Q as [E|Q]; [injection E as <- <-; vm_compute in Ep; injection Ep as <- <-; first [exfalso; apply N; reflexivity|reflexivity]|]). destruct Q.
    + injection Ep as -> <-. cbn [app]. unfold yylex. destruct (Z.ltb_spec c 1); [exfalso; revert Q; vm_compute; intuition lia|]. rewrite (proj2 (signs_spec c) Q). reflexivity.
    + injection Ep as -> <-. destruct Q as [<-|[<-|[]]]; (destruct r as [|d r]; [reflexivity|]); (destruct (Z.eq_dec d 38) as [->|N1]; [|destruct (Z.eq_dec d 126) as [->|N2]]); try reflexivity; try (destruct D; eexists; reflexivity).
      * unfold yylex. cbn -[Z.eqb]. rewrite (proj2 (Z.eqb_neq d 38) N1). reflexivity.
      * unfold yylex. cbn -[Z.eqb]. rewrite (proj2 (Z.eqb_neq d 126) N2). reflexivity.
    + injection Ep as <- <-. destruct Q as [->|Q]; [reflexivity|]. destruct r as [|d r]; [discriminate|]. injection Q as ->. reflexivity.
    + injection Ep as <- <-. destruct r as [|d r]; [congruence|]. unfold yylex. cbn -[Z.eqb]. destruct (Z.eqb_spec d 93) as [->|]; [destruct Q2; reflexivity|]. destruct (Z.eqb_spec d 45) as [->|]; [destruct Q3; reflexivity|]. reflexivity.
    + injection Ep as -> <-. repeat (destruct Q as [<-|Q]; [reflexivity|]). destruct Q.
    + injection Ep as -> <-. cbn [app]. unfold yylex. destruct (Z.ltb_spec c 1); [lia|]. destruct (is_punct c) eqn:E; [apply signs_spec in E; contradiction|].
      assert (X : forall x, In x [38; 126; 45; 92; 48; 49; 50; 51; 52; 53; 54; 55; 56; 57] -> c <> x) by (intros x Hx ->; apply Q2; exact Hx).
      destruct (Z.eqb_spec c 38) as [->|]; [destruct (X 38); simpl; auto|]. destruct (Z.eqb_spec c 126) as [->|]; [destruct (X 126); simpl; auto|]. destruct (Z.eqb_spec c 45) as [->|]; [destruct (X 45); simpl; auto|]. destruct (Z.eqb_spec c 92) as [->|]; [destruct (X 92); simpl; auto|].
      destruct ((48 <=? c) && (c <=? 57)) eqn:E9; auto. exfalso. apply (X c); auto. assert (c = 48 \/ c = 49 \/ c = 50 \/ c = 51 \/ c = 52 \/ c = 53 \/ c = 54 \/ c = 55 \/ c = 56 \/ c = 57) by lia. simpl. intuition.
Qed.

Lemma single_conv mk v r k r' : singleton mk (v, r) = (k, r') -> k <> TBad -> 0 <= v /\ k = mk v /\ r' = r.
Proof. cbn [singleton]. destruct (Z.ltb_spec v 0); intros E; injection E as <- <-; [congruence|auto]. Qed.

Lemma hexbyte_conv s v r : parseHexByte s = (v, r) -> 0 <= v -> exists a b, s = a :: b :: r /\ numeral digit 16 [a; b] v.
Proof. intros E. apply (hex_byte_value _ _ _ E). Qed.

Lemma escape_conv s k r : consumeEscape I s = (k, r) -> k <> TBad -> exists p, 92 :: s = p ++ r /\ piece p r k.
Proof.
  intros E B. destruct s as [|c t]; [cbn [consumeEscape] in E; injection E as <- <-; congruence|].
  assert (TAB : forall s k, In (s, k) escapes -> chars s = [92; c] -> (k, t) = (k, r) -> exists p, 92 :: c :: t = p ++ r /\ piece p r k).
  { intros s k' H X Y. injection Y as <-. exists (chars s). split; [rewrite X; reflexivity|constructor; auto]. }
  cbn [consumeEscape] in E. destruct (is_escaped_meta c) eqn:M.
  { apply quotable_spec in M. injection E as <- <-. exists [92; c]. split; auto. apply (pc_quoted c t M). }
  Local Ltac row E TAB s := match type of E with (if ?c =? ?n then _ else _) = _ => destruct (Z.eqb_spec c n) as [->|_]; [injection E as <- <-; apply (TAB s); [unfold escapes; simpl; tauto|reflexivity|reflexivity]|] end.
  row E TAB "\a"%string. row E TAB "\e"%string. row E TAB "\f"%string. row E TAB "\n"%string. row E TAB "\r"%string. row E TAB "\t"%string.
  row E TAB "\d"%string. row E TAB "\D"%string. row E TAB "\s"%string. row E TAB "\S"%string. row E TAB "\h"%string. row E TAB "\H"%string. row E TAB "\v"%string. row E TAB "\V"%string. row E TAB "\w"%string. row E TAB "\W"%string.
  destruct (Z.eqb_spec c 120) as [->|_].
  { destruct t as [|d u]; [injection E as <- <-; congruence|]. destruct (Z.eqb_spec d 123) as [->|_].
    - destruct (parseHexCodePoint u) as [v r'] eqn:P. destruct (single_conv _ _ _ _ _ E B) as (V & -> & ->). destruct (cp_conv _ _ _ P V) as (ds & -> & K). exists (chars "\x{"%string ++ ds ++ chars "}"%string). split; [rewrite <- !app_assoc; reflexivity|constructor; auto].
    - destruct (parseHexByte (d :: u)) as [v r'] eqn:P. destruct (single_conv _ _ _ _ _ E B) as (V & -> & ->). destruct (hexbyte_conv _ _ _ P V) as (a & b & X & K). rewrite X. exists (chars "\x"%string ++ [a; b]). split; [reflexivity|constructor; auto]. }
  destruct (Z.eqb_spec c 122) as [->|_].
  { destruct (parseHexByte t) as [v r'] eqn:P. destruct (single_conv _ _ _ _ _ E B) as (V & -> & ->). destruct (hexbyte_conv _ _ _ P V) as (a & b & -> & K). exists (chars "\z"%string ++ [a; b]). split; [reflexivity|constructor; auto]. }
  destruct ((48 <=? c) && (c <=? 55)) eqn:O8.
  { destruct (parseOctByte (c :: t)) as [v r'] eqn:P. destruct (single_conv _ _ _ _ _ E B) as (V & -> & ->). destruct (oct_byte_value _ _ _ P) as (ds & w & X & L & Nu & -> & D).
    destruct (Z.ltb_spec 255 w); [lia|]. exists (92 :: ds). split; [cbn [app]; rewrite <- X; reflexivity|]. apply (pc_octal ds w r'); auto.
    - split; auto. destruct ds as [|x ds]; [|simpl; lia]. cbn [app] in X. subst r'. destruct D as [D|D]; [discriminate|]. exfalso. apply (D (c - 48)). constructor. lia.
    - destruct D as [D|D]; auto. right. intros x y d ->. apply D. }
  destruct (Z.eqb_spec c 78) as [->|_].
  { destruct (parseNamedCodePoint I t) as [v r'] eqn:P. destruct (single_conv _ _ _ _ _ E B) as (V & -> & ->). destruct t as [|c t]; [injection P as <- <-; lia|].
    destruct (Z.eqb_spec c 123) as [->|NB]; [|unfold parseNamedCodePoint in P; rewrite (proj2 (Z.eqb_neq c 123) NB) in P; injection P as <- <-; lia].
    assert (D : (exists u, t = 85 :: 43 :: u) \/ forall u, t <> 85 :: 43 :: u).
    { destruct t as [|a [|b t]]; try (right; intros; discriminate). destruct (Z.eq_dec a 85) as [->|]; [|right; congruence]. destruct (Z.eq_dec b 43) as [->|]; [left; eauto|right; congruence]. }
    destruct D as [(u & ->)|D].
    - change (parseHexCodePoint u = (v, r')) in P. destruct (cp_conv _ _ _ P V) as (ds & -> & K). exists (chars "\N{U+"%string ++ ds ++ chars "}"%string). split; [rewrite <- !app_assoc; reflexivity|constructor; auto].
    - rewrite named_ok in P by auto. destruct (prepareStringForICU t) as [[name r'']|] eqn:Q; [|injection P as <- <-; lia]. injection P as <- <-. destruct (prepare_conv _ _ _ Q) as (n & -> & NI & LU).
      exists (chars "\N{"%string ++ n ++ chars "}"%string). split; [rewrite <- !app_assoc; reflexivity|]. constructor; auto. intros BG. unfold begins in BG. destruct n as [|a [|b n]]; try discriminate. injection BG as -> ->. apply (D (n ++ 125 :: r'')). reflexivity. }
  destruct ((c =? 112) || (c =? 80)) eqn:PP.
  { assert (C : In c [112; 80]) by (simpl; lia). destruct (parseProperty (92 :: c :: t)) as [[p' r']|] eqn:P; [|injection E as <- <-; congruence]. injection E as <- <-.
    destruct t as [|d t]; [discriminate|]. cbn [parseProperty] in P. destruct (Z.eqb_spec d 123) as [->|]; [|discriminate]. cbn [negb] in P.
    destruct (prepareStringForICU (92 :: c :: 123 :: t)) as [[m' r'']|] eqn:Q; [|discriminate]. injection P as <- <-. cbn [fst snd]. destruct (prepare_conv _ _ _ Q) as (n' & X & NI & LU).
    assert (Y : exists n, n' = 92 :: c :: 123 :: n /\ t = n ++ 125 :: r'').
    { destruct n' as [|a [|b [|d n]]]; cbn [app] in X; try discriminate; injection X; intros; subst; try discriminate; try (exfalso; destruct C as [C|[C|[]]]; discriminate). eauto. }
    destruct Y as (n & -> & ->). assert (FB : Forall (fun c => 0 <= c <= 255) [92; c; 123]) by (constructor; [lia|]; constructor; [destruct C as [<-|[<-|[]]]; lia|]; constructor; [lia|constructor]).
    assert (Z' : exists m, m' = [92; c; 123] ++ m).
    { remember (92 :: c :: 123 :: n) as q0 eqn:E1. destruct LU as [n'' F|n'' x F NB]; [exists n; auto|]. destruct n'' as [|a [|b [|d q]]]; cbn [app] in E1; injection E1; intros; subst; try (exfalso; apply NB; lia); try (exfalso; apply NB; destruct C as [<-|[<-|[]]]; lia). exists q. reflexivity. }
    destruct Z' as (m & ->). change (92 :: c :: 123 :: n) with ([92; c; 123] ++ n) in LU. apply looked_up_app in LU; auto.
    exists (chars "\"%string ++ c :: chars "{"%string ++ n ++ chars "}"%string). split; [change (92 :: c :: 123 :: n ++ 125 :: r'' = 92 :: c :: 123 :: (n ++ [125]) ++ r''); rewrite <- app_assoc; reflexivity|].
    rewrite <- app_assoc. apply (pc_property c n m r''); auto. intros K. apply NI. right. right. right. auto. }
  row E TAB "\A"%string. row E TAB "\B"%string. row E TAB "\K"%string. row E TAB "\Z"%string. row E TAB "\b"%string. injection E as <- <-. congruence.
Qed.

Lemma yylex_conv c t k r : yylex I false c t = (k, r) -> k <> TBad -> exists p, c :: t = p ++ r /\ piece p r k.
Proof.
  unfold yylex. intros E B. destruct (Z.ltb_spec c 1); [injection E as <- <-; congruence|]. cbv iota in E.
  destruct (is_punct c) eqn:P; [apply signs_spec in P; injection E as <- <-; exists [c]; split; auto; constructor; auto|].
  destruct (Z.eqb_spec c 38) as [->|N1].
  { destruct t as [|d u]; [injection E as <- <-; exists [38]; split; auto; constructor; [simpl; auto|intros (? & ?); discriminate]|].
    destruct (Z.eqb_spec d 38) as [->|N]; injection E as <- <-; [exists (chars "&&"%string); split; auto; apply pc_escape; unfold escapes; simpl; tauto|]. exists [38]. split; auto. constructor; [simpl; auto|]. intros (? & X). injection X; congruence. }
  destruct (Z.eqb_spec c 126) as [->|N2].
  { destruct t as [|d u]; [injection E as <- <-; exists [126]; split; auto; constructor; [simpl; auto|intros (? & ?); discriminate]|].
    destruct (Z.eqb_spec d 126) as [->|N]; injection E as <- <-; [exists (chars "~~"%string); split; auto; apply pc_escape; unfold escapes; simpl; tauto|]. exists [126]. split; auto. constructor; [simpl; auto|]. intros (? & X). injection X; congruence. }
  destruct (Z.eqb_spec c 45) as [->|N3].
  { destruct t as [|d u]; [injection E as <- <-; exists [45]; split; auto; apply pc_last_hyphen; auto|].
    destruct (Z.eqb_spec d 93) as [->|N]; [injection E as <- <-; exists [45]; split; auto; apply pc_last_hyphen; right; reflexivity|].
    destruct (Z.eqb_spec d 45) as [->|N']; injection E as <- <-; [exists (chars "--"%string); split; auto; apply pc_escape; unfold escapes; simpl; tauto|].
    exists [45]. split; auto. apply pc_hyphen; [discriminate| |]; unfold begins; cbn [String.length firstn]; intros X; injection X; auto. }
  destruct (Z.eqb_spec c 92) as [->|N4]; [apply escape_conv; auto|].
  destruct ((48 <=? c) && (c <=? 57)) eqn:D; injection E as <- <-.
  - exists [c]. split; auto. constructor. assert (c = 48 \/ c = 49 \/ c = 50 \/ c = 51 \/ c = 52 \/ c = 53 \/ c = 54 \/ c = 55 \/ c = 56 \/ c = 57) by lia. change (In c [48; 49; 50; 51; 52; 53; 54; 55; 56; 57]). simpl. intuition.
  - exists [c]. split; auto. apply pc_other; auto.
    + intros X. apply signs_spec in X. congruence.
    + change (~ In c [38; 126; 45; 92; 48; 49; 50; 51; 52; 53; 54; 55; 56; 57]). simpl. intuition; subst; try contradiction; discriminate.
Qed.

Lemma lex_cons f c t : lex I (S f) false (c :: t) = match yylex I false c t with (TBad, _) => [TBad] | (k, r) => k :: lex I f false r end.
Proof. reflexivity. Qed.

Lemma cut_lex s ts : cut_into s ts -> forall f, (length s <= f)%nat -> lex I f false s = ts /\ ~ In TBad ts.
Proof.
  induction 1 as [|p r k ts P C IH]; intros f L; [destruct f; auto|]. destruct (yylex_ok p r k P) as (c & t & X & Y & B). rewrite X in *.
  destruct f as [|f]; [simpl in L; lia|]. rewrite lex_cons, Y. assert (LR : (length r <= f)%nat).
  { destruct p as [|x p]; [exfalso|apply (f_equal (@length Z)) in X; cbn [app length] in X; rewrite app_length in X; simpl in L; lia].
    cbn [app] in X. subst r. inversion P; unfold escapes in *; repeat match goal with H : In _ (_ :: _) |- _ => destruct H as [H|H]; [injection H as <- <-; discriminate|] | H : In _ [] |- _ => destruct H end; try discriminate. }
  destruct (IH f LR) as (E & NB). destruct k; try congruence; rewrite E; (split; [reflexivity|]); intros [K|K]; auto; discriminate.
Qed.

Lemma lex_cut f : forall s, (length s <= f)%nat -> ~ In TBad (lex I f false s) -> cut_into s (lex I f false s).
Proof.
  induction f as [|f IH]; intros s L NB; (destruct s as [|c t]; [constructor|]); [simpl in L; lia|].
  rewrite lex_cons in *. destruct (yylex I false c t) as [k r] eqn:E. assert (B : k <> TBad) by (intros ->; apply NB; left; reflexivity).
  destruct (yylex_conv _ _ _ _ E B) as (p & X & P). rewrite X.
  assert (LR : (length r <= f)%nat).
  { destruct p as [|x p]; [exfalso|apply (f_equal (@length Z)) in X; cbn [app length] in X; rewrite app_length in X; simpl in L; lia].
    inversion P; unfold escapes in *; repeat match goal with H : In _ (_ :: _) |- _ => destruct H as [H|H]; [injection H as <- <-; discriminate|] | H : In _ [] |- _ => destruct H end; try discriminate. }
  destruct k; try congruence; (apply ci_next; [exact P|apply IH; [exact LR|intros K; apply NB; right; exact K]]).
Qed.

(** The tokens of a text are exactly the pieces it can be cut into; there is only one way to cut it. *)
Theorem text_tokens cps ts : cut_into cps ts <-> lex I (length cps) false cps = ts /\ ~ In TBad ts.
Proof. split; [intros H; apply (cut_lex _ _ H); auto|]. intros (<- & H). apply lex_cut; auto. Qed.
End Reading.
Print Assumptions text_tokens.

(** * Patterns *)

Lemma turns_good on ts : forall o o', turns on ts o = Some o' -> ~ In TBad ts.
Proof.
  induction ts as [|k ts IH]; intros o o' E; cbn [turns] in E; [auto|]. destruct (turn on k o) as [o1|] eqn:Et; [|discriminate]. intros [->|H]; [discriminate|]. exact (IH _ _ E H).
Qed.
Lemma switch_good o ts o' : switch o ts o' -> ~ In TBad ts.
Proof.
  intros [ts' o1 NE E|ts' o1 NE E|ts' o1 us o2 NE E NE' E']; apply turns_good in E; try apply turns_good in E'; cbn [In]; rewrite ?in_app_iff; cbn [In]; rewrite ?in_app_iff; cbn [In]; intuition discriminate.
Qed.
Lemma number_good ts v : number ts v -> ~ In TBad ts.
Proof. induction 1; cbn [In]; rewrite ?in_app_iff; cbn [In]; intuition discriminate. Qed.
Lemma quant_good ts a b n : quant ts a b n -> ~ In TBad ts.
Proof.
  intros [| | |us v H|us v H|us v vs w H G L]; try apply number_good in H; try apply number_good in G; cbn [In]; rewrite ?in_app_iff; cbn [In]; rewrite ?in_app_iff; cbn [In]; intuition discriminate.
Qed.
Lemma class_good I o :
  (forall ts c n, charclass I o ts c n -> ~ In TBad ts) /\ (forall f b ts c n, cc_expr I o f b ts c n -> ~ In TBad ts) /\ (forall f b ts c n, cc_elem I o f b ts c n -> ~ In TBad ts).
Proof.
  apply (class_mut I o (fun ts c n => ~ In TBad ts) (fun _ _ ts c n => ~ In TBad ts) (fun _ _ ts c n => ~ In TBad ts)); intros;
    try match goal with op : setop |- _ => destruct op; cbn [op_toks] end; cbn [In]; rewrite ?in_app_iff; cbn [In]; rewrite ?in_app_iff; cbn [In]; intuition (try discriminate); subst; discriminate.
Qed.
Lemma alt_good I :
  (forall o ts o' t n, alt I o ts o' t n -> ~ In TBad ts) /\ (forall b o ts o' t n, concat I b o ts o' t n -> ~ In TBad ts) /\
  (forall b o ts o' t n, rep I b o ts o' t n -> ~ In TBad ts) /\ (forall o ts o' t n, patom I o ts o' t n -> ~ In TBad ts).
Proof.
  apply (alt_mut I (fun o ts o' t n => ~ In TBad ts) (fun _ o ts o' t n => ~ In TBad ts) (fun _ o ts o' t n => ~ In TBad ts) (fun o ts o' t n => ~ In TBad ts)); intros;
    repeat match goal with H : switch _ _ _ |- _ => apply switch_good in H | H : quant _ _ _ _ |- _ => apply quant_good in H | H : charclass _ _ _ _ _ |- _ => apply class_good in H end;
    cbn [In]; rewrite ?in_app_iff; cbn [In]; rewrite ?in_app_iff; cbn [In]; try (intuition discriminate).
  - assert (X : ~ In TBad (look_toks k)) by (unfold look_toks; repeat destruct (_ =? _)%N; simpl; intuition discriminate). intuition discriminate.
  - intros [->|[]]; discriminate.
Qed.

(** What an accepted pattern without look-around stands for, from its characters on *)
Theorem pattern_text I R enc insensitive unicode text t n : icu_ok I -> icu_folds I R -> bytes text ->
  parse I false insensitive unicode text = Ok (t, n) -> has_look t = false ->
  exists cps ts o' L, transform_utf8_to_unicode text = Ok cps /\ cut_into I cps ts /\
    says I R enc RAlt (first_opts insensitive unicode) ts o' L /\ forall w, lang (enc_atom enc) t w <-> L w.
Proof.
  intros IO IF B E HL. pose proof (parse_spec I false insensitive unicode text IO B) as S. rewrite E in S. destruct S as (cps & ws & o1 & m & E1 & F & T & A & _).
  destruct (pattern_meaning I R enc false insensitive unicode text t n IO IF B E HL) as (cps' & o' & L & T' & SA & EQ). rewrite T in T'. injection T' as <-.
  exists cps, (lex I (length cps) false cps), o', L. split; auto. split; auto. apply text_tokens. split; auto. apply (proj1 (alt_good I) _ _ _ _ _ A).
Qed.
Print Assumptions pattern_text.

(** A text that cannot be cut into tokens is no pattern. *)
Theorem uncut_refused I insensitive unicode text cps : icu_ok I -> bytes text -> transform_utf8_to_unicode text = Ok cps -> (forall ts, ~ cut_into I cps ts) ->
  forall r, parse I false insensitive unicode text <> Ok r.
Proof.
  intros IO B T N (t, n) E. pose proof (parse_spec I false insensitive unicode text IO B) as S. rewrite E in S. destruct S as (cps' & ws & o1 & m & E1 & F & T' & A & _). rewrite T in T'. injection T' as <-.
  apply (N (lex I (length cps) false cps)). apply text_tokens. split; auto. apply (proj1 (alt_good I) _ _ _ _ _ A).
Qed.
Print Assumptions uncut_refused.

Definition tx_chars : list Z := chars "\x{1F4a9}\x4a\1015\t\p{Lu}x--y-]&&9a\zfF\N{U+3bb}\N{A}\-".
Definition tx_tokens : list tok :=
  [TChar 128169; TChar 74; TChar 65; TDigit 53; TChar 9; TSet (SProperty (chars "\p{Lu}")); TChar 120; TMinus; TChar 121; TChar 45; TP 93; TAnd; TDigit 57; TP 97;
   TByte 255; TChar 955; TChar 955; TChar 45].
Example tx_cut : cut_into small_icu tx_chars tx_tokens.
Proof. apply text_tokens. split; [vm_compute; reflexivity|]. vm_compute. intuition discriminate. Qed.

(** `\x{41}\x2a|\102\z80*` *)
Definition tx_text : list N := map Z.to_N (chars "\x{41}\x2a|\102\z80*").
Definition tx_tree : pnode := PAlt (PCat (PAtom (ALit 65)) (PAtom (ALit 42))) (PCat (PAtom (ALit 66)) (PRep true (PAtom (AByte 128)) 0 UNBOUNDED)).
Example tx_meant : parse small_icu false false false tx_text = Ok (tx_tree, 9%nat) /\
  exists cps ts o' L, transform_utf8_to_unicode tx_text = Ok cps /\ cut_into small_icu cps ts /\ ts = [TChar 65; TChar 42; TP 124; TChar 66; TByte 128; TP 42] /\
    says small_icu eq (EBase ASCII) RAlt (first_opts false false) ts o' L /\ forall w, lang (enc_atom (EBase ASCII)) tx_tree w <-> L w.
Proof.
  assert (E : parse small_icu false false false tx_text = Ok (tx_tree, 9%nat)) by (vm_compute; reflexivity). split; auto.
  assert (B : bytes tx_text) by (apply Forall_forall; intros x H; revert x H; apply Forall_forall; vm_compute; repeat constructor).
  destruct (pattern_text small_icu eq (EBase ASCII) false false tx_text tx_tree 9 small_icu_ok small_folds B E eq_refl) as (cps & ts & o' & L & T & K & S & EQ).
  exists cps, ts, o', L. split; auto. split; auto. split; [|split; auto].
  vm_compute in T. injection T as <-. apply text_tokens in K as (<- & _). vm_compute. reflexivity.
Qed.

Example tx_uncut : transform_utf8_to_unicode (map Z.to_N (chars "a\q")) = Ok (chars "a\q") /\ (forall ts, ~ cut_into small_icu (chars "a\q") ts) /\ (forall ts, ~ cut_into small_icu (chars "\400") ts) /\ forall ts, ~ cut_into small_icu (chars "\x{110000}") ts.
Proof.
  split; [vm_compute; reflexivity|]. split; [|split]; intros ts H; apply text_tokens in H as (<- & H); apply H; vm_compute; auto.
Qed.
