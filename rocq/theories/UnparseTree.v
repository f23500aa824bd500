(** The text of a tree is read as that tree again: alternatives, concatenations, repetitions and leaves. *)
From Coq Require Import Ascii String.
From Verif Require Import Base RangeSetModel RangeSetProofs ByteSetModel UtfModel UtfProofs Thm_Utf EscModel Thm_Esc PatModel PatSpec EncModel EncProofs BuildEnc ParseModel ParseSets ParseGrammar ParseRun ParseText ParseFixed ParseFull Thm_Parse Thm_Fixed Thm_Class Thm_Meaning Thm_Text Thm_Grammar UnparseModel.
Import PatSpec.
Import ListNotations.
Open Scope list_scope.
Open Scope Z_scope.

(** * Which trees *)

(** Characters that are written so that they are read as themselves anywhere in a pattern: Latin-1
    without the signs of the pattern language that are not escaped, and without the signs that may
    join with a neighbour. *)
Definition plain_char (c : Z) : Prop := 0 <= c <= 255 /\ ~ In c (chars "|()?+*.[^${&~-").
(** Bounds that can be written *)
Definition plain_bounds (mn mx : N) : Prop := (mn <= mx)%N /\ Z.of_N mn <= INT_MAX /\ (mx = UNBOUNDED \/ Z.of_N mx <= INT_MAX).

Section Plain.
Variable plain_class : rset -> Prop.
Inductive plain : pnode -> Prop :=
| pl_alt l r : plain l -> plain r -> plain (PAlt l r)
| pl_cat l r : plain l -> plain r -> plain (PCat l r)
| pl_rep g t mn mx : plain t -> plain_bounds mn mx -> plain (PRep g t mn mx)
| pl_dot : plain (PAtom ADot)
| pl_lit c : plain_char c -> plain (PAtom (ALit c))
| pl_class v : plain_class v -> plain (PAtom (AClass v bs_empty true)).
End Plain.

(** The tree that is read: alternatives and concatenations associate to the left. *)
Fixpoint catl (x y : pnode) : pnode := match y with PCat a b => PCat (catl x a) b | _ => PCat x y end.
Fixpoint altl (x y : pnode) : pnode := match y with PAlt a b => PAlt (altl x a) b | _ => PAlt x y end.
Fixpoint to_left (t : pnode) : pnode :=
  match t with
  | PAlt l r => altl (to_left l) (to_left r)
  | PCat l r => catl (to_left l) (to_left r)
  | PRep g t mn mx => PRep g (to_left t) mn mx
  | _ => t
  end.

(** Trees that associate to the left already *)
Fixpoint left_nested (t : pnode) : Prop :=
  match t with
  | PAlt l r => left_nested l /\ left_nested r /\ match r with PAlt _ _ => False | _ => True end
  | PCat l r => left_nested l /\ left_nested r /\ match r with PCat _ _ => False | _ => True end
  | PRep _ t _ _ => left_nested t
  | _ => True
  end.

(** * Associating to the left changes nothing else *)

Lemma to_left_same t : left_nested t -> to_left t = t.
Proof.
  induction t as [k t IH|l IHl r IHr|l IHl r IHr|g t IH mn mx|a]; cbn [left_nested to_left]; auto.
  - intros (A & B & C). rewrite IHl, IHr by auto. destruct r; cbn [altl]; auto. contradiction.
  - intros (A & B & C). rewrite IHl, IHr by auto. destruct r; cbn [catl]; auto. contradiction.
  - intros A. rewrite IH by auto. auto.
Qed.

Lemma catl_lang A x y w : lang A (catl x y) w <-> lang A (PCat x y) w.
Proof.
  revert w. induction y as [k t IH|l IHl r IHr|l IHl r IHr|g t IH mn mx|a]; intros w; try (cbn [catl]; reflexivity).
  cbn [catl lang]. split.
  - intros (u & v & -> & U & V). apply IHl in U. destruct U as (u1 & u2 & -> & U1 & U2). exists u1, (u2 ++ v). rewrite app_assoc. split; auto. split; auto. exists u2, v. auto.
  - intros (u & v & -> & U & (v1 & v2 & -> & V1 & V2)). exists (u ++ v1), v2. rewrite app_assoc. split; auto. split; auto. apply IHl. exists u, v1. auto.
Qed.
Lemma altl_lang A x y w : lang A (altl x y) w <-> lang A (PAlt x y) w.
Proof. induction y as [k t IH|l IHl r IHr|l IHl r IHr|g t IH mn mx|a]; try (cbn [altl]; reflexivity). cbn [altl lang] in *. rewrite IHl. tauto. Qed.

Lemma pow_same (L M : word -> Prop) : (forall w, L w <-> M w) -> forall n w, pow L n w <-> pow M n w.
Proof. intros H. induction n as [|n IH]; intros w; cbn [pow]; [tauto|]. split; intros (u & v & -> & U & V); exists u, v; (split; [auto|split; [apply H; auto|apply IH; auto]]). Qed.

Lemma to_left_lang A t w : lang A (to_left t) w <-> lang A t w.
Proof.
  revert w. induction t as [k t IH|l IHl r IHr|l IHl r IHr|g t IH mn mx|a]; intros w; cbn [to_left]; try reflexivity.
  - rewrite altl_lang. cbn [lang]. rewrite IHl, IHr. tauto.
  - rewrite catl_lang. cbn [lang]. split; intros (u & v & -> & U & V); exists u, v; (split; [auto|split; [apply IHl; auto|apply IHr; auto]]).
  - cbn [lang]. split; intros (n & W & P); exists n; (split; [auto|]); revert P; apply pow_same; intros; rewrite IH; tauto.
Qed.

Lemma fm_fm {A B C} (f : A -> list B) (g : B -> list C) l : flat_map g (flat_map f l) = flat_map (fun a => flat_map g (f a)) l.
Proof. induction l as [|x l IH]; simpl; auto. rewrite flat_map_app, IH. auto. Qed.
Lemma catl_ways am x y w : ways am (catl x y) w = ways am (PCat x y) w.
Proof.
  revert w. induction y as [k t IH|l IHl r IHr|l IHl r IHr|g t IH mn mx|a]; intros w; try (cbn [catl]; reflexivity).
  cbn [catl ways] in *. rewrite IHl. apply fm_fm.
Qed.
Lemma altl_ways am x y w : ways am (altl x y) w = ways am (PAlt x y) w.
Proof. induction y as [k t IH|l IHl r IHr|l IHl r IHr|g t IH mn mx|a]; try (cbn [altl]; reflexivity). cbn [altl ways] in *. rewrite IHl. symmetry. apply app_assoc. Qed.
Lemma steps_same f g : (forall w, f w = g w) -> forall n w, steps f n w = steps g n w.
Proof. intros H. induction n as [|n IH]; intros w; cbn [steps]; auto. rewrite H. apply flat_map_ext. auto. Qed.
Lemma more_same f h : (forall w, f w = h w) -> forall g n w, more f g n w = more h g n w.
Proof.
  intros H g. induction n as [|n IH]; intros w; cbn [more]; auto. rewrite H.
  assert (E : flat_map (fun r => if (length r <? length w)%nat then more f g n r else [r]) (h w) = flat_map (fun r => if (length r <? length w)%nat then more h g n r else [r]) (h w)).
  { apply flat_map_ext. intros r. rewrite IH. auto. }
  rewrite E. auto.
Qed.
Lemma to_left_ways am t w : ways am (to_left t) w = ways am t w.
Proof.
  revert w. induction t as [k t IH|l IHl r IHr|l IHl r IHr|g t IH mn mx|a]; intros w; cbn [to_left]; try reflexivity.
  - rewrite altl_ways. cbn [ways]. rewrite IHl, IHr. auto.
  - rewrite catl_ways. cbn [ways]. rewrite IHl. apply flat_map_ext. auto.
  - cbn [ways]. rewrite (steps_same _ _ IH). apply flat_map_ext. intros r. apply more_same; auto.
Qed.

Lemma catl_assoc x a b : catl x (catl a b) = catl (catl x a) b.
Proof. induction b as [k t IH|l IHl r IHr|l IHl r IHr|g t IH mn mx|c]; cbn [catl]; auto. rewrite IHl. auto. Qed.
Lemma altl_assoc x a b : altl x (altl a b) = altl (altl x a) b.
Proof. induction b as [k t IH|l IHl r IHr|l IHl r IHr|g t IH mn mx|c]; cbn [altl]; auto. rewrite IHl. auto. Qed.
Lemma catl_is x y : exists a b, catl x y = PCat a b.
Proof. destruct y; cbn [catl]; eauto. Qed.
Lemma altl_is x y : exists a b, altl x y = PAlt a b.
Proof. destruct y; cbn [altl]; eauto. Qed.

(** * Numbers *)

Lemma number_text_tokens f v : 0 <= v < 10 ^ Z.of_nat f -> (1 <= f)%nat -> v <= INT_MAX -> exists ds, number_text f 10 v = ds /\ ds <> [] /\ Forall (fun c => 48 <= c <= 57) ds /\ number (map TDigit ds) v.
Proof.
  revert v. induction f as [|f IH]; intros v B L M; [lia|]. cbn [number_text]. eexists. split; [reflexivity|]. destruct (Z.ltb_spec v 10) as [H|H].
  - unfold digit_sign. destruct (Z.ltb_spec v 10); [|lia]. split; [discriminate|]. split; [constructor; auto; lia|]. cbn [map]. replace v with (48 + v - 48) at 2 by lia. constructor.
  - pose proof (Z.div_mod v 10 ltac:(lia)) as D. pose proof (Z.mod_pos_bound v 10 ltac:(lia)) as R.
    destruct f as [|f]; [change (10 ^ Z.of_nat 1) with 10 in B; lia|].
    destruct (IH (v / 10)) as (ds & E & NE & F & NU).
    { split; [apply Z.div_pos; lia|]. apply Z.div_lt_upper_bound; [lia|]. rewrite (Nat2Z.inj_succ (S f)), Z.pow_succ_r in B by lia. lia. }
    { lia. }
    { apply Z.le_trans with v; auto. apply Z.div_le_upper_bound; lia. }
    rewrite E. unfold digit_sign. destruct (Z.ltb_spec (v mod 10) 10); [|lia]. split; [destruct ds; discriminate|]. split; [apply Forall_app; split; auto; constructor; auto; lia|].
    rewrite map_app. cbn [map]. replace v with (v / 10 * 10 + (48 + v mod 10 - 48)) at 2 by lia. constructor; auto. lia.
Qed.

Lemma decimal_number v : 0 <= v <= INT_MAX -> Forall (fun c => 48 <= c <= 57) (decimal v) /\ number (map TDigit (decimal v)) v.
Proof. intros H. destruct (number_text_tokens 10 v) as (ds & E & _ & F & N); [split; [lia|]; unfold INT_MAX in H; cbn; lia|lia|lia|]. unfold decimal. rewrite E. auto. Qed.

(** * Tokens *)

Section Tokens.
Variable I : icu.

(** [s] is cut into [ts] whatever comes next. *)
Definition cuts (s : list Z) (ts : list tok) : Prop := forall r us, cut_into I r us -> cut_into I (s ++ r) (ts ++ us).
Definition ascii_text (s : list Z) : Prop := Forall (fun c => 1 <= c < 128) s.

Lemma cuts_nil : cuts [] [].
Proof. intros r us H. auto. Qed.
Lemma cuts_app s ts s' ts' : cuts s ts -> cuts s' ts' -> cuts (s ++ s') (ts ++ ts').
Proof. intros A B r us H. rewrite <- !app_assoc. auto. Qed.
Lemma cuts_one p k : (forall r, piece I p r k) -> cuts p [k].
Proof. intros H r us K. cbn [app]. constructor; auto. Qed.
Lemma cuts_sign c : In c signs -> cuts [c] [TP c].
Proof. intros H. apply cuts_one. intros r. apply pc_sign; auto. Qed.
Lemma cuts_digits ds : Forall (fun c => 48 <= c <= 57) ds -> cuts ds (map TDigit ds).
Proof.
  induction 1 as [|c ds H F IH]; [apply cuts_nil|]. apply (cuts_app [c] [TDigit c]); auto. apply cuts_one. intros r. apply pc_digit.
  assert (X : c = 48 \/ c = 49 \/ c = 50 \/ c = 51 \/ c = 52 \/ c = 53 \/ c = 54 \/ c = 55 \/ c = 56 \/ c = 57) by lia. cbn. intuition.
Qed.
Lemma ascii_app s s' : ascii_text s -> ascii_text s' -> ascii_text (s ++ s').
Proof. intros A B. apply Forall_app. auto. Qed.
Lemma ascii_digits ds : Forall (fun c => 48 <= c <= 57) ds -> ascii_text ds.
Proof. apply Forall_impl. intros; lia. Qed.

Ltac noin := let X := fresh in intros X; vm_compute in X; lia.
Ltac asc := unfold ascii_text; match goal with |- Forall ?P ?l => let x := eval vm_compute in l in change (Forall P x) end; repeat (apply Forall_cons; [lia|]); apply Forall_nil.

Lemma quant_text mn mx : plain_bounds mn mx -> exists ts m, cuts (repetition mn mx) ts /\ quant ts mn mx m /\ ascii_text (repetition mn mx) /\ brace_next (ts ++ [TP 63]) = brace_next ts.
Proof.
  intros (LE & M1 & M2). unfold repetition.
  destruct (N.eqb_spec mn 0) as [->|N0]; cbn [andb].
  - destruct (N.eqb_spec mx 1) as [->|N1].
    { exists [TP 63], 0%nat. split; [apply cuts_sign; cbn; auto 20|]. split; [constructor|]. split; [asc|auto]. }
    destruct (N.eqb_spec mx UNBOUNDED) as [->|N2].
    { exists [TP 42], 0%nat. split; [apply cuts_sign; cbn; auto 20|]. split; [constructor|]. split; [asc|auto]. }
    change ((0 =? 1)%N && false) with false. cbn iota.
    destruct (decimal_number 0 ltac:(unfold INT_MAX; lia)) as (F0 & D0).
    destruct (N.eqb_spec mx 0) as [->|N3].
    + exists ([TP 123] ++ map TDigit (decimal 0) ++ [] ++ [TP 125]), 1%nat. split; [|split; [|split]].
      * repeat apply cuts_app; try (apply cuts_sign; cbn; auto 20); [apply cuts_digits; auto|apply cuts_nil].
      * apply (qu_exact _ 0). auto.
      * repeat apply ascii_app; auto using ascii_digits; asc.
      * reflexivity.
    + destruct M2 as [M2|M2]; [contradiction|]. destruct (decimal_number (Z.of_N mx) ltac:(lia)) as (F1 & D1).
      exists ([TP 123] ++ map TDigit (decimal 0) ++ ([TP 44] ++ map TDigit (decimal (Z.of_N mx))) ++ [TP 125]), 2%nat. split; [|split; [|split]].
      * repeat apply cuts_app; try (apply cuts_sign; cbn; auto 20); apply cuts_digits; auto.
      * replace mx with (Z.to_N (Z.of_N mx)) at 2 by lia. rewrite <- (app_assoc [TP 44]). apply (qu_between _ 0 _ (Z.of_N mx)); auto. lia.
      * repeat apply ascii_app; auto using ascii_digits; asc.
      * reflexivity.
  - destruct (decimal_number (Z.of_N mn) ltac:(lia)) as (F0 & D0).
    destruct (N.eqb_spec mx UNBOUNDED) as [->|N2].
    + destruct (N.eqb_spec mn 1) as [->|N1]; cbn [andb].
      { exists [TP 43], 0%nat. split; [apply cuts_sign; cbn; auto 20|]. split; [constructor|]. split; [asc|auto]. }
      exists ([TP 123] ++ map TDigit (decimal (Z.of_N mn)) ++ [TP 44] ++ [TP 125]), 1%nat. split; [|split; [|split]].
      * repeat apply cuts_app; try (apply cuts_sign; cbn; auto 20); apply cuts_digits; auto.
      * replace mn with (Z.to_N (Z.of_N mn)) at 2 by lia. apply (qu_least _ (Z.of_N mn)); auto.
      * repeat apply ascii_app; auto using ascii_digits; asc.
      * reflexivity.
    + rewrite andb_false_r. destruct M2 as [M2|M2]; [contradiction|]. destruct (N.eqb_spec mx mn) as [->|N3].
      * exists ([TP 123] ++ map TDigit (decimal (Z.of_N mn)) ++ [] ++ [TP 125]), 1%nat. split; [|split; [|split]].
        -- repeat apply cuts_app; try (apply cuts_sign; cbn; auto 20); [apply cuts_digits; auto|apply cuts_nil].
        -- replace mn with (Z.to_N (Z.of_N mn)) at 2 3 by lia. apply (qu_exact _ (Z.of_N mn)). auto.
        -- repeat apply ascii_app; auto using ascii_digits; asc.
        -- reflexivity.
      * destruct (decimal_number (Z.of_N mx) ltac:(lia)) as (F1 & D1).
        exists ([TP 123] ++ map TDigit (decimal (Z.of_N mn)) ++ ([TP 44] ++ map TDigit (decimal (Z.of_N mx))) ++ [TP 125]), 2%nat. split; [|split; [|split]].
        -- repeat apply cuts_app; try (apply cuts_sign; cbn; auto 20); apply cuts_digits; auto.
        -- replace mx with (Z.to_N (Z.of_N mx)) at 2 by lia. replace mn with (Z.to_N (Z.of_N mn)) at 2 by lia. rewrite <- (app_assoc [TP 44]). apply (qu_between _ (Z.of_N mn) _ (Z.of_N mx)); auto. lia.
        -- repeat apply ascii_app; auto using ascii_digits; asc.
        -- reflexivity.
Qed.

(** Characters *)
Lemma hex_text v : 0 <= v <= 255 -> exists a b, hexadecimal v = [a; b] /\ numeral digit 16 [a; b] v /\ 48 <= a <= 70 /\ 48 <= b <= 70.
Proof.
  intros H. assert (D : forall d, 0 <= d < 16 -> digit (digit_sign d) d /\ 48 <= digit_sign d <= 70).
  { intros d K. unfold digit_sign. destruct (Z.ltb_spec d 10).
    - split; [|lia]. replace d with (48 + d - 48) at 2 by lia. constructor. lia.
    - split; [|lia]. replace d with (55 + d - 55) at 2 by lia. apply DAF. lia. }
  assert (N2 : forall x y, 0 <= x < 16 -> 0 <= y < 16 -> numeral digit 16 [digit_sign x; digit_sign y] (x * 16 + y)).
  { intros x y X Y. apply (NumSnoc digit 16 [digit_sign x] (digit_sign y) x y); [|apply D; auto]. replace x with (0 * 16 + x) at 2 by lia. apply (NumSnoc digit 16 [] (digit_sign x) 0 x); [constructor|apply D; auto]. }
  unfold hexadecimal. change 10%nat with (S (S 8)). cbn [number_text]. destruct (Z.ltb_spec v 16) as [L|L].
  - cbn [length Nat.ltb Nat.leb]. exists (digit_sign 0), (digit_sign v). split; [reflexivity|]. split; [|split; apply D; lia]. apply (N2 0 v); lia.
  - assert (Q : 0 <= v / 16 < 16) by (split; [apply Z.div_pos; lia|apply Z.div_lt_upper_bound; lia]). destruct (Z.ltb_spec (v / 16) 16); [|lia].
    pose proof (Z.mod_pos_bound v 16 ltac:(lia)). exists (digit_sign (v / 16)), (digit_sign (v mod 16)). split; [reflexivity|]. split; [|split; apply D; lia].
    rewrite (Z.div_mod v 16) at 3 by lia. rewrite (Z.mul_comm 16). apply N2; lia.
Qed.

(** A character as it is written, before a text [r] that does not begin with the same character *)
Lemma char_text c : 0 <= c <= 255 -> c <> 45 -> exists k,
  (forall r, (~ exists t, r = c :: t) -> piece I (byteToLiteralString c) r k) /\ (c <> 38 -> c <> 126 -> forall r, piece I (byteToLiteralString c) r k) /\ ascii_text (byteToLiteralString c) /\
  ((In c signs /\ k = TP c) \/ (48 <= c <= 57 /\ k = TDigit c) \/ (~ In c signs /\ k = TChar c)).
Proof.
  intros H NH. unfold byteToLiteralString.
  destruct (Z.eqb_spec c 92) as [->|N].
  { exists (TChar 92). split; [|split; [|split; [asc|right; right; split; auto; noin]]]; intros; apply (pc_quoted I 92); cbn; auto 30. }
  destruct ((32 <=? c) && (c <=? 126)) eqn:P.
  { assert (A : ascii_text [c]) by (constructor; [lia|constructor]).
    destruct (in_dec Z.eq_dec c signs) as [S|S].
    { exists (TP c). split; [|split; [|split; auto]]; intros; apply pc_sign; auto. }
    destruct (Z_le_dec 48 c) as [L1|L1]; [destruct (Z_le_dec c 57) as [L2|L2]|].
    { exists (TDigit c). split; [|split; [|split; auto]]; intros; apply pc_digit; assert (X : c = 48 \/ c = 49 \/ c = 50 \/ c = 51 \/ c = 52 \/ c = 53 \/ c = 54 \/ c = 55 \/ c = 56 \/ c = 57) by lia; cbn; intuition. }
    all: exists (TChar c); (split; [|split; [|split; auto]]).
    all: try (intros r NX; destruct (Z.eq_dec c 38) as [->|N1]; [apply pc_twice; cbn; auto|]; destruct (Z.eq_dec c 126) as [->|N2]; [apply pc_twice; cbn; auto|]; apply pc_other; [lia|auto|noin]).
    all: intros N1 N2 r; apply pc_other; [lia|auto|noin]. }
  assert (E : forall d s, In (s, TChar d) escapes -> ascii_text (str s) -> ~ In d signs -> exists k,
    (forall r, (~ exists t, r = d :: t) -> piece I (str s) r k) /\ (d <> 38 -> d <> 126 -> forall r, piece I (str s) r k) /\ ascii_text (str s) /\
    ((In d signs /\ k = TP d) \/ (48 <= d <= 57 /\ k = TDigit d) \/ (~ In d signs /\ k = TChar d))).
  { intros d s K A S. exists (TChar d). split; [|split; [|split; auto]]; intros; apply (pc_escape I s); auto. }
  destruct (Z.eqb_spec c 7) as [->|N7]; [apply E; [cbn; auto 30|asc|noin]|].
  destruct (Z.eqb_spec c 9) as [->|N9]; [apply E; [cbn; auto 30|asc|noin]|].
  destruct (Z.eqb_spec c 10) as [->|N10]; [apply E; [cbn; auto 30|asc|noin]|].
  destruct (Z.eqb_spec c 12) as [->|N12]; [apply E; [cbn; auto 30|asc|noin]|].
  destruct (Z.eqb_spec c 13) as [->|N13]; [apply E; [cbn; auto 30|asc|noin]|].
  destruct (Z.eqb_spec c 27) as [->|N27]; [apply E; [cbn; auto 30|asc|noin]|]. clear E.
  destruct (hex_text c H) as (a & b & -> & NU & A & B). exists (TChar c). split; [|split; [|split]]; try (intros; apply (pc_hex I a b); auto).
  - apply ascii_app; [asc|]. constructor; [lia|]. constructor; [lia|constructor].
  - right; right. split; auto. noin.
Qed.

Lemma literal_text o c : cased o = true -> plain_char c -> exists k, cuts (byteToLiteralString c) [k] /\ ascii_text (byteToLiteralString c) /\ brace_next [k] = false /\ patom I o [k] o (PAtom (ALit c)) 1.
Proof.
  intros CO (R & NI). assert (NE : forall d, In d (chars "|()?+*.[^${&~-") -> c <> d) by (intros d D ->; auto).
  destruct (char_text c R) as (k & _ & P & A & K); [apply NE; cbn; auto 30|]. exists k. split; [apply cuts_one, P; apply NE; cbn; auto 30|]. split; auto.
  destruct K as [(S & ->)|[(D & ->)|(_ & ->)]].
  - assert (X : c = 97 \/ c = 105 \/ c = 93 \/ c = 125 \/ c = 44 \/ c = 60 \/ c = 61 \/ c = 33).
    { assert (ND : Forall (fun d => c <> d) (chars "|()?+*.[^${&~-")) by (apply Forall_forall; auto). vm_compute in S. clear - S ND. vm_compute in ND. repeat (apply Forall_cons_iff in ND as (? & ND)). lia. }
    repeat (destruct X as [->|X]; [split; [reflexivity|apply at_simple; unfold simple_atom, literal_node; rewrite CO; reflexivity]|]). subst c. split; [reflexivity|apply at_simple; unfold simple_atom, literal_node; rewrite CO; reflexivity].
  - split; [reflexivity|]. apply at_simple. unfold simple_atom, literal_node. rewrite CO. reflexivity.
  - split; [reflexivity|]. apply at_simple. unfold simple_atom, literal_node. rewrite CO. reflexivity.
Qed.

(** * Trees *)

Variable plain_class : rset -> Prop.
Definition class_text (v : rset) : list Z := str "[" ++ byteSetToCharacterClass (low_bytes v) ++ str "]".
Definition class_reads (v : rset) : Prop := exists ts, cuts (class_text v) ts /\ ascii_text (class_text v) /\ brace_next ts = false /\
  forall o, cased o = true -> exists n, charclass I o ts {| cs_cps := v; cs_bytes := bs_empty; cs_add := true |} n.
Hypothesis class_good : forall v, plain_class v -> class_reads v.
Variable o : opts.
Hypothesis CO : cased o = true.

Definition reads_alt (ts : list tok) (t : pnode) : Prop := (exists n, alt I o ts o t n) /\ forall x tx nx, alt I o tx o x nx -> exists n, alt I o (tx ++ TP 124 :: ts) o (altl x t) n.
Definition reads_cat (ts : list tok) (t : pnode) : Prop := (exists b n, concat I b o ts o t n) /\ forall b x tx nx, concat I b o tx o x nx -> exists b' n, concat I b' o (tx ++ ts) o (catl x t) n.
Definition reads_atom (ts : list tok) (t : pnode) : Prop := exists n, patom I o ts o t n.
Definition reads_rep (ts : list tok) (t : pnode) : Prop := exists b n, rep I b o ts o t n.
Definition not_cat (t : pnode) : Prop := match t with PCat _ _ => False | _ => True end.
Definition not_alt (t : pnode) : Prop := match t with PAlt _ _ => False | _ => True end.

Lemma atom_rep ts t : reads_atom ts t -> reads_rep ts t.
Proof. intros (n & H). exists true, n. constructor. auto. Qed.
Lemma rep_cat ts t : reads_rep ts t -> brace_next ts = false -> not_cat t -> reads_cat ts t.
Proof.
  intros (b & n & H) B N. split; [exists b, n; constructor; auto|]. intros b' x tx nx K. exists b. eexists. replace (catl x t) with (PCat x t) by (destruct t; auto; contradiction). eapply co_cat; eauto.
Qed.
Lemma cat_alt ts t : reads_cat ts t -> not_alt t -> reads_alt ts t.
Proof.
  intros ((b & n & H) & _) N. split; [exists n; econstructor; eauto|]. intros x tx nx K. eexists. replace (altl x t) with (PAlt x t) by (destruct t; auto; contradiction). eapply al_or; eauto.
Qed.
Lemma group_atom ts t : reads_alt ts t -> reads_atom (TP 40 :: ts ++ [TP 41]) t.
Proof. intros ((n & H) & _). exists n. econstructor. eauto. Qed.
Lemma cats ts us t u : reads_cat ts t -> reads_cat us u -> reads_cat (ts ++ us) (catl t u).
Proof.
  intros ((b & n & H) & A) (_ & B). split.
  - destruct (B _ _ _ _ H) as (b' & m & K). eauto.
  - intros b' x tx nx K. destruct (A _ _ _ _ K) as (b2 & m & K2). destruct (B _ _ _ _ K2) as (b3 & m3 & K3). rewrite <- app_assoc in K3. rewrite catl_assoc. eauto.
Qed.
Lemma alts ts us t u : reads_alt ts t -> reads_alt us u -> reads_alt (ts ++ TP 124 :: us) (altl t u).
Proof.
  intros ((n & H) & A) (_ & B). split.
  - destruct (B _ _ _ H) as (m & K). eauto.
  - intros x tx nx K. destruct (A _ _ _ K) as (m & K2). destruct (B _ _ _ K2) as (m3 & K3). rewrite <- app_assoc in K3. rewrite altl_assoc. eauto.
Qed.

Definition level_of (t : pnode) (ts : list tok) (t' : pnode) : Prop :=
  match t with
  | PAlt _ _ => True
  | PCat _ _ => reads_cat ts t'
  | PRep _ _ _ _ => reads_rep ts t'
  | PAtom _ => reads_atom ts t'
  | PLook _ _ => False
  end.

Lemma brace_app ts us : ts <> [] -> brace_next (ts ++ us) = brace_next ts.
Proof. destruct ts; [contradiction|]. auto. Qed.

Lemma parens_text s ts : cuts s ts -> ascii_text s -> cuts (in_parens s) (TP 40 :: ts ++ [TP 41]) /\ ascii_text (in_parens s).
Proof.
  intros C A. split.
  - apply (cuts_app (str "(") [TP 40]); [apply cuts_sign; cbn; auto 20|]. apply cuts_app; auto. apply cuts_sign; cbn; auto 20.
  - apply ascii_app; [asc|]. apply ascii_app; auto. asc.
Qed.

Lemma tree_text : forall t, plain plain_class t -> exists s ts, unparse t = Ok s /\ ts <> [] /\ cuts s ts /\ ascii_text s /\ brace_next ts = false /\ reads_alt ts (to_left t) /\ level_of t ts (to_left t).
Proof.
  assert (CAT : forall t ts, level_of t ts (to_left t) -> brace_next ts = false -> not_alt t -> reads_cat ts (to_left t)).
  { intros t ts L B N. destruct t; cbn [level_of] in L; try contradiction; auto.
    - apply rep_cat; auto; exact Logic.I.
    - apply rep_cat; [apply atom_rep; exact L|auto|exact Logic.I]. }
  assert (LOW : forall t ts, level_of t ts (to_left t) -> brace_next ts = false -> not_alt t -> not_cat t -> reads_alt ts (to_left t)).
  { intros t ts L B N N'. apply cat_alt; [apply CAT; auto|]. destruct t; try exact Logic.I; contradiction. }
  assert (PC : forall t s ts, ts <> [] -> cuts s ts -> ascii_text s -> brace_next ts = false -> reads_alt ts (to_left t) -> level_of t ts (to_left t) ->
    exists ts', ts' <> [] /\ cuts (if match t with PAlt _ _ => true | _ => false end then in_parens s else s) ts' /\ ascii_text (if match t with PAlt _ _ => true | _ => false end then in_parens s else s) /\
      brace_next ts' = false /\ reads_cat ts' (to_left t)).
  { intros t s ts NE C A B RA L. assert (NA : not_alt t -> exists ts', ts' <> [] /\ cuts s ts' /\ ascii_text s /\ brace_next ts' = false /\ reads_cat ts' (to_left t)) by (intros N; exists ts; auto 10).
    destruct t as [k t|l r|l r|g t mn mx|a]; try (apply NA; exact Logic.I).
    destruct (parens_text _ _ C A) as (C' & A'). exists (TP 40 :: ts ++ [TP 41]). split; [discriminate|]. split; auto. split; auto. split; auto.
    apply rep_cat; [apply atom_rep, group_atom; auto|reflexivity|]. cbn [to_left]. destruct (altl_is (to_left l) (to_left r)) as (a & b & ->). exact Logic.I. }
  intros t0 H0. induction H0 as [l r HL IHl HR IHr|l r HL IHl HR IHr|g t mn mx HT IH BO| |c PL|v PV].
  - destruct IHl as (a & ta & Ea & NA & CA & AA & BA & RA & _), IHr as (b & tb & Eb & NB & CB & AB & BB & RB & _). cbn [unparse]. rewrite Ea, Eb. cbn [bind].
    do 2 eexists. split; [reflexivity|]. split; [|split; [apply (cuts_app _ _ _ (TP 124 :: tb) CA); apply (cuts_app (str "|") [TP 124]); auto; apply cuts_sign; cbn; auto 20|]].
    + destruct ta; discriminate.
    + split; [apply ascii_app; auto; apply ascii_app; auto; asc|]. split; [rewrite brace_app; auto|]. split; [|exact Logic.I]. apply alts; auto.
  - destruct IHl as (a & ta & Ea & NA & CA & AA & BA & RA & LA), IHr as (b & tb & Eb & NB & CB & AB & BB & RB & LB). cbn [unparse]. rewrite Ea, Eb. cbn [bind].
    destruct (PC _ _ _ NA CA AA BA RA LA) as (ua & NA' & CA' & AA' & BA' & RA'). destruct (PC _ _ _ NB CB AB BB RB LB) as (ub & NB' & CB' & AB' & BB' & RB').
    do 2 eexists. split; [reflexivity|]. split; [|split; [apply cuts_app; [exact CA'|exact CB']|]].
    + destruct ua; [contradiction|discriminate].
    + split; [apply ascii_app; auto|]. split; [rewrite brace_app; auto|]. cbn [to_left level_of]. pose proof (cats _ _ _ _ RA' RB') as X. split; auto. apply cat_alt; auto.
      destruct (catl_is (to_left l) (to_left r)) as (x & y & ->). exact Logic.I.
  - destruct IH as (a & ta & Ea & NA & CA & AA & BA & RA & LA). cbn [unparse]. rewrite Ea. cbn [bind].
    assert (AT : exists ts', ts' <> [] /\ cuts (if is_atomic t then a else in_parens a) ts' /\ ascii_text (if is_atomic t then a else in_parens a) /\ brace_next ts' = false /\ reads_atom ts' (to_left t)).
    { destruct (is_atomic t) eqn:IA.
      - exists ta. split; auto. split; auto. split; auto. split; auto. destruct t; try discriminate. exact LA.
      - destruct (parens_text _ _ CA AA) as (C' & A'). exists (TP 40 :: ta ++ [TP 41]). split; [discriminate|]. split; auto. split; auto. split; auto. apply group_atom; auto. }
    destruct AT as (ts & NT & CT & AT & BT & (n & RT)). destruct (quant_text mn mx BO) as (qs & m & CQ & Q & AQ & _).
    assert (R : exists us, cuts (if g then [] else str "?") us /\ ascii_text (if g then [] else str "?") /\ reads_rep (ts ++ qs ++ us) (PRep g (to_left t) mn mx)).
    { destruct g.
      - exists []. split; [apply cuts_nil|]. split; [constructor|]. rewrite app_nil_r. do 2 eexists. eapply re_greedy; eauto.
      - exists [TP 63]. split; [apply cuts_sign; cbn; auto 20|]. split; [asc|]. do 2 eexists. eapply re_lazy; eauto. }
    destruct R as (us & CU & AU & RR). do 2 eexists. split; [reflexivity|]. split; [|split; [apply cuts_app; [exact CT|apply cuts_app; [exact CQ|exact CU]]|]].
    + destruct ts; [contradiction|discriminate].
    + split; [apply ascii_app; auto; apply ascii_app; auto|]. assert (B' : brace_next (ts ++ qs ++ us) = false) by (rewrite brace_app; auto). split; auto. cbn [to_left]. split; [|exact RR].
      apply cat_alt; [|exact Logic.I]. apply rep_cat; auto. exact Logic.I.
  - exists (str "."), [TP 46]. split; auto. split; [discriminate|]. split; [apply cuts_sign; cbn; auto 20|]. split; [asc|]. split; auto.
    assert (X : level_of (PAtom ADot) [TP 46] (to_left (PAtom ADot))) by (eexists; apply at_simple; reflexivity). split; [apply LOW|]; auto; exact Logic.I.
  - destruct (literal_text o c CO PL) as (k & C & A & B & R). exists (byteToLiteralString c), [k]. split; auto. split; [discriminate|]. split; auto. split; auto. split; auto.
    assert (X : level_of (PAtom (ALit c)) [k] (to_left (PAtom (ALit c)))) by (eexists; exact R). split; [apply LOW|]; auto; exact Logic.I.
  - destruct (class_good v PV) as (ts & C & A & B & R'). destruct (R' o CO) as (n & R). exists (class_text v), ts. split; [reflexivity|].
    assert (X : level_of (PAtom (AClass v bs_empty true)) ts (to_left (PAtom (AClass v bs_empty true)))) by (eexists; apply (at_class I o ts _ n R)).
    split; [|split; auto; split; auto; split; auto; split; [apply LOW|]; auto; exact Logic.I].
    intros ->. inversion R.
Qed.
End Tokens.

(** * Reading the text *)

Lemma ascii_transform s : ascii_text s -> transform_utf8_to_unicode (as_bytes s) = Ok s /\ bytes (as_bytes s).
Proof.
  intros A. assert (U : utf8_text s (as_bytes s)).
  { exists (map (fun c => [Z.to_N c]) s). split.
    - induction A as [|c s H A IH]; cbn [map]; constructor; auto. replace c with (Z.of_N (Z.to_N c)) at 1 by lia. constructor. lia.
    - unfold as_bytes. clear A. induction s as [|c s IH]; cbn [map List.concat app]; [auto|f_equal; auto]. }
  split; [apply utf8_transform; auto|apply (utf8_bytes s); auto].
Qed.

Lemma unparse_read I (plain_class : rset -> Prop) t unicode : icu_ok I -> (forall v, plain_class v -> class_reads I v) -> plain plain_class t ->
  exists s n, unparse t = Ok s /\ parse I false false unicode (as_bytes s) = Ok (to_left t, n).
Proof.
  intros IO CG P. destruct (tree_text I plain_class CG (first_opts false unicode) eq_refl t P) as (s & ts & E & _ & C & A & _ & ((n & R) & _) & _).
  specialize (C [] [] (ci_end I)). rewrite !app_nil_r in C. apply text_tokens in C as (C & _). destruct (ascii_transform s A) as (T & B).
  exists s, (S n). split; auto. apply (parse_exactly I false false unicode (as_bytes s) s); auto. rewrite C. eauto.
Qed.
