(** The text of a character class is read as that class again. *)
From Coq Require Import Ascii String.
From Verif Require Import Base RangeSetModel RangeSetProofs ByteSetModel UtfModel UtfProofs EscModel Thm_Esc PatModel PatSpec EncModel EncProofs EncUtf BuildEnc ParseModel ParseSets ParseGrammar ParseRun ParseText ParseFixed ParseFull Thm_Parse Thm_Fixed Thm_Class Thm_Meaning Thm_Text UnparseModel UnparseTree.
Import PatSpec.
Import ListNotations.
Open Scope list_scope.
Open Scope Z_scope.

(** A class is written negated if that is shorter, and if it is empty below 256. *)
Definition negated (bs : Z -> bool) : bool := if has_both bs then inverted bs else negb (bs 0).

(** * Sets *)

Definition holds (c : cset) (S : Z -> Prop) : Prop :=
  canon MAXCP (cs_cps c) /\ cs_bytes c = bs_empty /\ cs_add c = true /\ forall x, par (cs_cps c) x = true <-> S (Z.of_N x).

Lemma holds_char a : 0 <= a < 1114112 -> exists c, char_set a = Ok c /\ holds c (fun z => z = a).
Proof.
  intros H. unfold char_set. destruct (set_spec MAXCP [] (Z.to_N a) true maxcp_pos (canon_empty _) ltac:(unfold MAXCP; lia)) as (v & -> & C & P). cbn [bind]. eexists. split; [reflexivity|].
  split; [exact C|]. split; [reflexivity|]. split; [reflexivity|]. cbn [cs_cps]. intros x. split.
  - intros Q. rewrite P in Q by (apply par_below with v; auto). destruct (N.eqb_spec x (Z.to_N a)); [lia|discriminate].
  - intros Q. rewrite P by (unfold MAXCP; lia). destruct (N.eqb_spec x (Z.to_N a)); [auto|lia].
Qed.
Lemma holds_range a b : 0 <= a < b -> b < 1114112 -> exists c, char_range a b = Ok c /\ holds c (fun z => a <= z <= b).
Proof.
  intros H L. unfold char_range. destruct (Z.leb_spec b a); [lia|]. eexists. split; [reflexivity|]. split; [apply insert_canon; [apply canon_empty|lia|unfold MAXCP; lia]|]. split; [reflexivity|]. split; [reflexivity|].
  cbn [cs_cps]. intros x. rewrite (insert_par MAXCP) by (try apply canon_empty; lia). change (par [] x) with false. rewrite orb_false_r. lia.
Qed.
Lemma holds_or x y S T : holds x S -> holds y T -> exists z, combine OUnion x y = Ok z /\ holds z (fun z => S z \/ T z).
Proof.
  intros (C & B & A & P) (C' & B' & A' & P'). unfold combine. destruct (or_spec MAXCP (cs_cps y) (cs_cps x) C' C) as (w & -> & Cw & Pw). cbn [bind]. eexists. split; [reflexivity|].
  split; [exact Cw|]. rewrite B, B', A. split; [reflexivity|]. split; [reflexivity|]. cbn [cs_cps]. intros z. rewrite Pw, orb_true_iff, P, P'. tauto.
Qed.

Ltac asc := unfold ascii_text; match goal with |- Forall ?P ?l => let x := eval vm_compute in l in change (Forall P x) end; repeat (apply Forall_cons; [lia|]); apply Forall_nil.

Section Class.
Variable I : icu.

(** The operands of a class so far *)
Definition body (o : opts) (pos : bool) (ts : list tok) (S : Z -> Prop) : Prop :=
  (ts = [] /\ forall z, 0 <= z -> ~ S z) \/ exists b c n, cc_expr I o pos b ts c n /\ holds c S.

Lemma body_add o pos ts S us T : body o pos ts S -> (forall first, exists b c n, cc_elem I o first b us c n /\ holds c T) -> hyphen_next us = false -> body o pos (ts ++ us) (fun z => S z \/ T z).
Proof.
  intros [(-> & N)|(b & c & n & H & HC)] E HY; right.
  - destruct (E pos) as (b & c & n & K & (C & B & A & P)). exists b, c, n. split; [constructor; auto|]. split; auto. split; auto. split; auto. intros x. rewrite P. specialize (N (Z.of_N x) ltac:(lia)). tauto.
  - destruct (E false) as (b' & c' & n' & K & HC'). destruct (holds_or _ _ _ _ HC HC') as (z & EZ & HZ). exists b', z, (n + n')%nat. split; auto. apply (ce_op I o pos b b' OUnion ts us c c'); auto.
Qed.
Lemma body_same o pos ts S T : body o pos ts S -> (forall z, 0 <= z -> (S z <-> T z)) -> body o pos ts T.
Proof.
  intros [(-> & N)|(b & c & n & H & (C & B & A & P))] E; [left|right].
  - split; auto. intros z L Q. apply (N z L), E; auto.
  - exists b, c, n. split; auto. split; auto. split; auto. split; auto. intros x. rewrite P. apply E. lia.
Qed.

(** * Pieces of the text *)

(** What may follow a part that has only characters below [i] *)
Definition nxt (i : Z) (r : list Z) : Prop := exists h t, r = h :: t /\ (h = 92 \/ h = 45 \/ h = 93 \/ i <= h).
Definition safe_end (c : Z) : Prop := 0 <= c <= 255 /\ c <> 45 /\ ~ 91 <= c <= 94.

Lemma class_char c : safe_end c -> exists k,
  (forall r, (~ exists t, r = c :: t) -> piece I (byteToCharacterString c) r k) /\ ascii_text (byteToCharacterString c) /\ (forall first, cc_char first k = Some c) /\
  hyphen_next [k] = false /\ exists h t, byteToCharacterString c = h :: t /\ (h = 92 \/ h = c).
Proof.
  intros (R & N1 & N2). unfold byteToCharacterString. destruct (Z.eqb_spec c 8) as [->|N8].
  { exists TSmallB. split; [intros; apply (pc_escape I "\b"); cbn; auto 40|]. split; [asc|]. split; [reflexivity|]. split; [reflexivity|]. exists 92, [98]. auto. }
  destruct (char_text I c R N1) as (k & P & _ & A & K). exists k. split; auto. split; auto. split; [|split].
  - intros first. destruct K as [(S & ->)|[(D & ->)|(_ & ->)]]; [|reflexivity|reflexivity]. vm_compute in S.
    repeat (destruct S as [<-|S]; [try reflexivity; exfalso; lia|]). contradiction.
  - destruct K as [(S & ->)|[(D & ->)|(_ & ->)]]; [|reflexivity|reflexivity]. cbn [hyphen_next]. apply Z.eqb_neq. auto.
  - unfold byteToLiteralString. destruct (Z.eqb_spec c 92); [exists 92, [92]; auto|]. destruct (_ && _); [exists c, []; auto|].
    repeat (destruct (_ =? _); [eexists _, _; split; [reflexivity|left; reflexivity]|]). eexists _, _; split; [reflexivity|left; reflexivity].
Qed.

(** The text [s] stands for the characters from [lo] to [hi]. *)
Definition seg (s : list Z) (lo hi : Z) : Prop := exists ts,
  (forall r us, nxt (hi + 1) r -> cut_into I r us -> cut_into I (s ++ r) (ts ++ us)) /\ ascii_text s /\ (exists h t, s = h :: t /\ (h = 92 \/ h = lo)) /\
  forall o pos ts0 S, body o pos ts0 S -> body o pos (ts0 ++ ts) (fun z => S z \/ lo <= z <= hi).

Lemma nxt_not c r : safe_end c -> nxt (c + 1) r -> ~ exists t, r = c :: t.
Proof. intros (R & N1 & N2) (h & t & -> & H) (t' & E). injection E as -> _. lia. Qed.

Lemma seg_char c : safe_end c -> seg (byteToCharacterString c) c c.
Proof.
  intros H. destruct (class_char c H) as (k & P & A & CC & HY & ST). exists [k]. split; [|split; [auto|split; [auto|]]].
  - intros r us N K. cbn [app]. constructor; auto. apply P, nxt_not; auto.
  - intros o pos ts0 S B. apply (body_same o pos _ (fun z => S z \/ z = c)).
    + apply body_add; auto. intros first. destruct (holds_char c) as (cs & E & HC); [destruct H; lia|]. exists true, cs, 1%nat. split; auto. eapply el_char; eauto.
    + intros z Hz. split; intros [Q|Q]; auto; right; lia.
Qed.

Lemma seg_dash a b : safe_end a -> safe_end b -> a < b -> seg (byteToCharacterString a ++ [45] ++ byteToCharacterString b) a b.
Proof.
  intros HA HB L. destruct (class_char a HA) as (k & P & A & CC & HY & (h & t & ST & SH)). destruct (class_char b HB) as (k' & P' & A' & CC' & HY' & (h' & t' & ST' & SH')).
  exists [k; TP 45; k']. split; [|split; [|split]].
  - intros r us N K. rewrite <- !app_assoc. cbn [app]. apply (ci_next I (byteToCharacterString a) _ k).
    + apply P. intros (t2 & E). cbn [app] in E. injection E as E _. destruct HA. lia.
    + change (45 :: byteToCharacterString b ++ r) with ([45] ++ byteToCharacterString b ++ r). constructor.
      * rewrite ST'. apply (pc_hyphen I (h' :: t' ++ r)); [discriminate| |]; intros E; vm_compute in E; injection E as E; destruct HB as (? & ? & ?); lia.
      * constructor; auto. apply P', nxt_not; auto.
  - repeat apply ascii_app; auto. asc.
  - rewrite ST. exists h, (t ++ [45] ++ byteToCharacterString b). auto.
  - intros o pos ts0 S B. apply (body_add o pos ts0 S [k; TP 45; k'] (fun z => a <= z <= b)); auto.
    intros first. destruct (holds_range a b) as (cs & E & HC); [destruct HA; lia|destruct HB; lia|]. exists false, cs, 1%nat. split; auto. eapply el_range; eauto.
Qed.

Lemma seg_app s s' a b c : seg s a b -> seg s' (b + 1) c -> a <= b <= c -> seg (s ++ s') a c.
Proof.
  intros (ts & C & A & (h & t & E & H) & B) (ts' & C' & A' & (h' & t' & E' & H') & B') L. exists (ts ++ ts'). split; [|split; [apply ascii_app; auto|split; [rewrite E; exists h, (t ++ s'); auto|]]].
  - intros r us N K. rewrite <- !app_assoc. apply C; auto. rewrite E'. exists h', (t' ++ r). split; auto. lia.
  - intros o pos ts0 S Q. rewrite app_assoc. eapply body_same; [apply B', B, Q|]. intros z Hz. cbn beta. split.
    + intros [[X|X]|X]; auto; right; lia.
    + intros [X|X]; auto. destruct (Z_le_dec z b); [left; right|right]; lia.
Qed.

Lemma enumerate_next n j first : j <> 93 -> fst (enumerate (S n) j first) = byteToCharacterString j ++ fst (enumerate n (j + 1) first).
Proof. intros H. cbn [enumerate]. apply Z.eqb_neq in H. rewrite H. cbn [andb]. destruct (enumerate n (j + 1) first). reflexivity. Qed.

Lemma seg_write first lo hi : safe_end lo -> safe_end hi -> lo <= hi -> (hi - lo < 3 -> forall j, lo <= j <= hi -> ~ 91 <= j <= 94) -> seg (write_range first lo hi) lo hi.
Proof.
  intros HL HH L SM. unfold write_range. destruct (Z.ltb_spec (hi - lo + 1) 4) as [S|S].
  - specialize (SM ltac:(lia)). destruct (Z.eq_dec hi lo) as [->|N0].
    { replace (lo - lo + 1) with 1 by lia. change (Z.to_nat 1) with 1%nat. rewrite enumerate_next by (specialize (SM lo ltac:(lia)); lia). cbn [enumerate fst]. rewrite app_nil_r. apply seg_char; auto. }
    destruct (Z.eq_dec hi (lo + 1)) as [->|N1].
    { replace (lo + 1 - lo + 1) with 2 by lia. change (Z.to_nat 2) with 2%nat. rewrite !enumerate_next by (pose proof (SM lo ltac:(lia)); pose proof (SM (lo + 1) ltac:(lia)); lia). cbn [enumerate fst]. rewrite app_nil_r. apply (seg_app _ _ lo lo); [apply seg_char; auto|apply seg_char; auto|lia]. }
    assert (E : hi = lo + 1 + 1) by lia. subst hi. replace (lo + 1 + 1 - lo + 1) with 3 by lia. change (Z.to_nat 3) with 3%nat.
    rewrite !enumerate_next by (pose proof (SM lo ltac:(lia)); pose proof (SM (lo + 1) ltac:(lia)); pose proof (SM (lo + 1 + 1) ltac:(lia)); lia). cbn [enumerate fst]. rewrite app_nil_r.
    destruct (Z.eq_dec (lo + 1) 45) as [E|N45].
    { rewrite E. assert (X : lo = 44) by lia. subst lo. apply (seg_dash 44 46); auto; lia. }
    apply (seg_app _ _ lo lo); [apply seg_char; auto| |lia]. apply (seg_app _ _ (lo + 1) (lo + 1)); [|apply seg_char; auto|lia]. apply seg_char. specialize (SM (lo + 1) ltac:(lia)). destruct HL, HH. split; [lia|]. auto.
  - assert (N1 : lo =? 93 = false) by (apply Z.eqb_neq; destruct HL; lia). assert (N2 : hi =? 93 = false) by (apply Z.eqb_neq; destruct HH; lia). rewrite N1, N2. cbn [andb app]. apply seg_dash; auto. lia.
Qed.

(** * The loop *)

Variable bs : Z -> bool.
Variable inv : bool.
Definition wanted (z : Z) : bool := (z <? 256) && xorb inv (bs z).
Hypothesis corner : (forall z, 91 <= z <= 94 -> wanted z = false) \/ (forall z, 90 <= z <= 95 -> wanted z = true).
Definition pre : list Z := if inv then [94] else [].

Definition bound (i : Z) (s : cl_state) : Z := if cl_left s <=? 255 then cl_left s else i.
Definition loop_inv (i : Z) (s : cl_state) : Prop :=
  cl_caret s = false /\
  ((cl_left s = 256 /\ (i = 0 \/ wanted (i - 1) = false)) \/ (0 <= cl_left s <= 255 /\ cl_left s < i /\ (forall z, cl_left s <= z < i -> wanted z = true) /\ (cl_left s = 0 \/ wanted (cl_left s - 1) = false))) /\
  exists out ts S, cl_out s = pre ++ out /\
    (forall r us, nxt (bound i s) r -> cut_into I r us -> cut_into I (out ++ r) (ts ++ us)) /\ ascii_text out /\ (forall o pos, body o pos ts S) /\
    forall z, 0 <= z -> ((S z \/ (cl_hyphen s = true /\ z = 45)) <-> wanted z = true /\ z < bound i s).

Lemma wanted_end z : 256 <= z -> wanted z = false.
Proof. intros H. unfold wanted. destruct (Z.ltb_spec z 256); [lia|reflexivity]. Qed.

Ltac fin CA := cbn [cl_caret cl_left cl_hyphen cl_out]; rewrite ?orb_true_r, ?orb_false_r; try reflexivity; try exact CA; try (split; lia); try lia; try (intros; lia).
Lemma loop_step i s : 0 <= i <= 256 -> loop_inv i s -> loop_inv (i + 1) (class_step bs inv s i).
Proof.
  intros Hi (CA & LE & out & ts & S & EO & CU & AS & BO & CO). unfold class_step. fold (wanted i). destruct (wanted i) eqn:W.
  - destruct LE as [(E & PV)|(B & LI & AL & PV)].
    + rewrite E. cbn [Z.ltb Z.compare Pos.compare Pos.compare_cont]. change (255 <? 256) with true. cbn iota.
      assert (i <= 255) by (destruct (Z_le_dec 256 i); [rewrite wanted_end in W by auto; discriminate|lia]).
      split; [exact CA|]. cbn [cl_left cl_out cl_hyphen]. split.
      * right. split; [lia|]. split; [lia|]. split; [intros z Hz; replace z with i by lia; auto|]. auto.
      * exists out, ts, S. unfold bound in *. cbn [cl_left]. rewrite E in *. change (256 <=? 255) with false in *. destruct (Z.leb_spec i 255); [|lia]. cbn iota in *. auto.
    + destruct (Z.ltb_spec 255 (cl_left s)); [lia|]. split; [exact CA|]. split.
      * right. split; auto. split; [lia|]. split; auto. intros z Hz. destruct (Z.eq_dec z i) as [->|]; auto. apply AL. lia.
      * exists out, ts, S. unfold bound in *. destruct (Z.leb_spec (cl_left s) 255); [|lia]. auto.
  - destruct LE as [(E & PV)|(B & LI & AL & PV)].
    + rewrite E. change (256 <=? 255) with false. cbn iota. split; [exact CA|]. split; [left; split; auto; right; replace (i + 1 - 1) with i by lia; auto|].
      exists out, ts, S. unfold bound in *. rewrite E in *. change (256 <=? 255) with false in *. cbn iota in *. split; auto. split.
      * intros r us (h & t & -> & H) K. apply CU; auto. exists h, t. split; auto. lia.
      * split; auto. split; auto. intros z Hz. rewrite CO by auto. split; [intros (A & L); split; auto; lia|]. intros (A & L). split; auto. destruct (Z.eq_dec z i) as [->|]; [congruence|lia].
    + destruct (Z.leb_spec (cl_left s) 255) as [_|]; [|lia]. set (l := cl_left s) in *.
      assert (BD : bound i s = l) by (unfold bound; fold l; destruct (Z.leb_spec l 255); [auto|lia]). rewrite BD in *.
      assert (CL : ~ 91 <= l <= 94).
      { intros K. destruct corner as [Q|Q]; [specialize (AL l ltac:(lia)); rewrite Q in AL by auto; discriminate|]. destruct PV as [PV|PV]; [lia|]. rewrite Q in PV by lia. discriminate. }
      assert (CH : ~ 91 <= i - 1 <= 94).
      { intros K. destruct corner as [Q|Q]; [specialize (AL (i - 1) ltac:(lia)); rewrite Q in AL by auto; discriminate|]. rewrite Q in W by lia. discriminate. }
      assert (WIDE : forall j, l <= j <= i - 1 -> 91 <= j <= 94 -> l <= 90 /\ 95 <= i - 1).
      { intros j J K. lia. }
      assert (DONE : forall lo hi hy s', l <= lo -> hi <= i - 1 -> lo <= hi -> safe_end lo -> safe_end hi -> (hi - lo < 3 -> forall j, lo <= j <= hi -> ~ 91 <= j <= 94) ->
        (forall z, 0 <= z -> (lo <= z <= hi \/ (hy = true /\ z = 45) <-> (l <= z <= i - 1 \/ (cl_hyphen s = true /\ z = 45)))) ->
        cl_caret s' = false -> cl_left s' = 256 -> cl_hyphen s' = hy -> cl_out s' = cl_out s ++ write_range (cl_first s) lo hi -> loop_inv (i + 1) s').
      { intros lo hi hy s' A1 A2 A3 A4 A5 A6 A7 B1 B2 B3 B4. destruct (seg_write (cl_first s) lo hi A4 A5 A3 A6) as (ts' & SC & SA & (h & t & SE & SH) & SB).
        split; auto. split; [left; split; auto; right; replace (i + 1 - 1) with i by lia; auto|].
        exists (out ++ write_range (cl_first s) lo hi), (ts ++ ts'), (fun z => S z \/ lo <= z <= hi). split; [rewrite B4, EO, app_assoc; auto|].
        unfold bound. rewrite B2. change (256 <=? 255) with false. cbn iota. split; [|split; [apply ascii_app; auto|split; [intros o pos; apply SB; auto|]]].
        - intros r us (h' & t' & -> & H') K. rewrite <- !app_assoc. apply CU.
          + rewrite SE. exists h, (t ++ h' :: t'). split; auto. lia.
          + apply SC; auto. exists h', t'. split; auto. lia.
        - intros z Hz. specialize (A7 z Hz). specialize (CO z Hz). rewrite B3. split.
          + intros Q. assert (Q' : S z \/ l <= z <= i - 1 \/ (cl_hyphen s = true /\ z = 45)) by (clear - Q A7; tauto). destruct Q' as [Q'|[Q'|Q']].
            * destruct (proj1 CO (or_introl Q')). split; auto; lia.
            * split; [apply AL|]; lia.
            * destruct (proj1 CO (or_intror Q')). split; auto; lia.
          + intros (Q & L). destruct (Z_lt_dec z l) as [Y|Y].
            * destruct (proj2 CO (conj Q Y)) as [X|X]; [auto|]. assert (lo <= z <= hi \/ (hy = true /\ z = 45)) by (apply A7; auto). clear - H; tauto.
            * assert (z <= i - 1) by (destruct (Z.eq_dec z i) as [->|]; [congruence|lia]). assert (lo <= z <= hi \/ (hy = true /\ z = 45)) by (apply A7; left; lia). clear - H0; tauto. }
      destruct (Z.eqb_spec l 45) as [E45|N45].
      * destruct (Z.eqb_spec l (i - 1)) as [EH|NH]; cbn [andb].
        -- (* the hyphen alone *)
           split; [exact CA|]. split; [left; split; [reflexivity|right; replace (i + 1 - 1) with i by lia; auto]|]. exists out, ts, S. unfold bound. cbn [cl_left cl_out cl_hyphen]. change (256 <=? 255) with false. cbn iota.
           split; auto. split; [|split; auto; split; auto].
           { intros r us (h & t & -> & H) K. apply CU; auto. exists h, t. split; auto. lia. }
           intros z Hz. specialize (CO z Hz). split.
           ++ intros [Q|(_ & ->)]; [destruct (proj1 CO (or_introl Q)); split; auto; lia|]. split; [apply AL; lia|lia].
           ++ intros (Q & L). destruct (Z_lt_dec z l) as [Y|Y]; [destruct (proj2 CO (conj Q Y)) as [X|(X & Y')]; auto|]. right. split; auto. destruct (Z.eq_dec z i) as [->|]; [congruence|lia].
        -- replace (l + 1 =? 94) with false by (symmetry; apply Z.eqb_neq; lia). rewrite andb_false_r.
           assert (i - 1 <= 255) by (destruct (Z_le_dec 256 (i - 1)); [specialize (AL (i - 1) ltac:(lia)); rewrite wanted_end in AL by auto; discriminate|lia]).
           apply (DONE (l + 1) (i - 1) true); fin CA.
      * cbn [andb]. destruct (Z.eqb_spec (i - 1) 45) as [EH|NH].
        -- replace (l =? 94) with false by (symmetry; apply Z.eqb_neq; lia). rewrite andb_false_r.
           apply (DONE l (i - 1 - 1) true); fin CA.
        -- replace (l =? 94) with false by (symmetry; apply Z.eqb_neq; lia). rewrite andb_false_r.
           assert (i - 1 <= 255) by (destruct (Z_le_dec 256 (i - 1)); [specialize (AL (i - 1) ltac:(lia)); rewrite wanted_end in AL by auto; discriminate|lia]).
           apply (DONE l (i - 1) (cl_hyphen s)); fin CA.
Qed.

Lemma fold_inv {A} (Q : Z -> A -> Prop) (f : A -> Z -> A) n : forall a s, (forall i s, Z.of_nat a <= i < Z.of_nat (a + n) -> Q i s -> Q (i + 1) (f s i)) -> Q (Z.of_nat a) s -> Q (Z.of_nat (a + n)) (fold_left f (upto a n) s).
Proof.
  induction n as [|n IH]; intros a s H K; cbn [upto seq map fold_left]; [rewrite Nat.add_0_r; auto|].
  replace (a + S n)%nat with (S a + n)%nat by lia. apply IH; [intros; apply H; [lia|auto]|]. replace (Z.of_nat (S a)) with (Z.of_nat a + 1) by lia. apply H; [lia|auto].
Qed.

Lemma loop_done : loop_inv 257 (class_loop bs inv).
Proof.
  apply (fold_inv loop_inv (class_step bs inv) 257 0).
  - intros i s Hi K. apply loop_step; auto. lia.
  - split; [reflexivity|]. split; [left; auto|]. exists [], [], (fun _ => False). split; [unfold pre; cbn [cl_out]; rewrite app_nil_r; reflexivity|]. split; [auto|]. split; [constructor|]. split; [left; auto|].
    intros z Hz. unfold bound. cbn [cl_left cl_hyphen]. change (256 <=? 255) with false. cbn iota. split; [intros [[]|(E & _)]; discriminate|intros (_ & L); exfalso; lia].
Qed.
End Class.

(** * The whole class *)

Definition plain_class (v : rset) : Prop :=
  canon MAXCP v /\ (forall x, (256 <= x < MAXCP)%N -> (in_class v x <-> negated (low_bytes v) = true)) /\
  ((forall z, 91 <= z <= 94 -> low_bytes v z = negated (low_bytes v)) \/ (forall z, 90 <= z <= 95 -> low_bytes v z = negb (negated (low_bytes v)))).

Lemma both_spec bs : has_both bs = existsb (fun i => (i <? 256) && xorb (bs i) (bs 0)) (upto 1 256).
Proof.
  unfold has_both, sizes. generalize (upto 1 256). intros l. assert (G : forall s, snd (fold_left (size_step bs) l s) = snd s || existsb (fun i => (i <? 256) && xorb (bs i) (bs 0)) l).
  { induction l as [|i l IH]; intros s; cbn [fold_left existsb]; [rewrite orb_false_r; auto|]. rewrite IH. destruct s as [[d st] b]. unfold size_step. destruct (_ || xorb (bs (i - 1)) (bs i)); cbn [snd]; rewrite orb_assoc; auto. }
  rewrite G. auto.
Qed.
Lemma upto_in z a n : In z (upto a n) <-> Z.of_nat a <= z < Z.of_nat (a + n).
Proof.
  unfold upto. rewrite in_map_iff. split.
  - intros (x & <- & H). apply in_seq in H. lia.
  - intros H. exists (Z.to_nat z). split; [lia|]. apply in_seq. lia.
Qed.
Lemma both_true bs : has_both bs = true -> exists z, 0 <= z < 256 /\ bs z <> bs 0.
Proof. rewrite both_spec, existsb_exists. intros (z & H & E). apply upto_in in H. apply andb_true_iff in E as (L & E). exists z. split; [lia|]. intros X. rewrite X, xorb_nilpotent in E. discriminate. Qed.
Lemma both_false bs z : has_both bs = false -> 0 <= z < 256 -> bs z = bs 0.
Proof.
  intros H L. destruct (Z.eq_dec z 0) as [->|N]; auto. rewrite both_spec in H. destruct (Bool.bool_dec (bs z) (bs 0)) as [E|E]; auto. exfalso. assert (X : existsb (fun i => (i <? 256) && xorb (bs i) (bs 0)) (upto 1 256) = true).
  { apply existsb_exists. exists z. split; [apply upto_in; lia|]. apply andb_true_iff. split; [lia|]. destruct (bs z), (bs 0); auto; congruence. }
  congruence.
Qed.

(** From the operands to the class *)
Lemma class_of_body I o v (neg : bool) ts (S : Z -> Prop) : cased o = true -> canon MAXCP v -> (forall pos, body I o pos ts S) -> (exists z, 0 <= z < 1114112 /\ S z) -> (exists x, par v x = true) ->
  (forall x, (x < MAXCP)%N -> (par v x = true <-> (if neg then ~ S (Z.of_N x) else S (Z.of_N x)))) ->
  exists n, charclass I o (TP 91 :: (if neg then [TP 94] else []) ++ ts ++ [TP 93]) {| cs_cps := v; cs_bytes := bs_empty; cs_add := true |} n.
Proof.
  intros CO CV B (z0 & L0 & Z0) NE SV. destruct (B (negb neg)) as [(_ & N)|(b & c & n & H & (C & BY & AD & P))]; [destruct (N z0); auto; lia|]. exists n.
  assert (ANY : rs_any (cs_cps c) = true) by (apply (rs_any_par MAXCP); auto; exists (Z.to_N z0); apply P; replace (Z.of_N (Z.to_N z0)) with z0 by lia; auto).
  assert (ANV : rs_any v = true) by (apply (rs_any_par MAXCP); auto).
  destruct neg; cbn [negb app] in *.
  - apply (cl_neg I o b ts c n); auto. unfold finish_neg. rewrite ANY, CO. cbn [bind fst]. destruct (flip_spec MAXCP (cs_cps c) maxcp_pos C) as (w & -> & Cw & Pw). cbn [bind]. rewrite BY, AD. change (ParseModel.bs_any bs_empty) with false. cbn iota.
    replace w with v. { rewrite ANV. reflexivity. } apply (canon_unique MAXCP); auto. intros x Hx. rewrite Pw by auto. specialize (SV x Hx). specialize (P x). apply eq_true_iff_eq. rewrite SV, negb_true_iff. rewrite <- P. apply not_true_iff_false.
  - apply (cl_pos I o b ts c n); auto. unfold finish_pos. rewrite CO. cbn [bind fst]. rewrite ANY. cbn [orb]. rewrite BY, AD.
    replace (cs_cps c) with v; auto. apply (canon_unique MAXCP); auto. intros x Hx. specialize (SV x Hx). specialize (P x). apply eq_true_iff_eq. rewrite SV, P. tauto.
Qed.

Lemma cut_sign I c r us : In c signs -> cut_into I r us -> cut_into I (c :: r) (TP c :: us).
Proof. intros H K. apply (ci_next I [c]); auto. apply pc_sign; auto. Qed.

Lemma class_text_both bs : has_both bs = true -> byteSetToCharacterClass bs = end_text (class_loop bs (inverted bs)).
Proof. intros H. unfold byteSetToCharacterClass. rewrite H. cbn [negb]. exact eq_refl. Qed.
Lemma class_text_flat bs : has_both bs = false -> byteSetToCharacterClass bs = if bs 0 then str "\x00-\xFF" else str "^\x00-\xFF".
Proof. intros H. unfold byteSetToCharacterClass. rewrite H. cbn [negb]. exact eq_refl. Qed.

(** The set written, and the class *)
Lemma class_sets v bs neg : canon MAXCP v -> (forall z, 0 <= z -> bs z = par v (Z.to_N z)) -> negated bs = neg ->
  (forall x, (256 <= x < MAXCP)%N -> (par v x = true <-> neg = true)) ->
  forall S : Z -> Prop, (forall z, 0 <= z -> (S z <-> wanted bs neg z = true)) ->
  (exists z, 0 <= z < 256 /\ S z) /\ (forall x, (x < MAXCP)%N -> (par v x = true <-> (if neg then ~ S (Z.of_N x) else S (Z.of_N x)))) /\ exists x, par v x = true.
Proof.
  intros CV TP_ NEG HI. remember (wanted bs neg) as w eqn:Ew.
  intros S HS. assert (EQ : forall x, (x < MAXCP)%N -> (par v x = true <-> (if neg then ~ S (Z.of_N x) else S (Z.of_N x)))).
    { intros x Hx. pose proof (HS (Z.of_N x) ltac:(lia)) as H. rewrite Ew in H. unfold wanted in H. destruct (Z.ltb_spec (Z.of_N x) 256) as [L|L]; cbn [andb] in H.
      - rewrite TP_ in H by lia. rewrite N2Z.id in H. clear - H. destruct neg, (par v x); cbn [xorb] in H; intuition congruence.
      - specialize (HI x ltac:(lia)). clear - H HI. destruct neg; intuition congruence. }
    assert (XW : exists z, 0 <= z < 256 /\ w z = true).
    { rewrite Ew, <- NEG. unfold wanted, negated. destruct (has_both bs) eqn:HB.
      - destruct (both_true bs HB) as (z & L & NEQ). destruct (xorb (inverted bs) (bs z)) eqn:X; [exists z; split; auto; rewrite X; destruct (Z.ltb_spec z 256); auto; lia|].
        exists 0. split; [lia|]. change (0 <? 256) with true. cbn [andb]. revert X NEQ. generalize (inverted bs) (bs z) (bs 0). clear. intros [] [] []; cbn; congruence.
      - exists 0. split; [lia|]. change (0 <? 256) with true. cbn [andb]. generalize (bs 0). clear. intros []; reflexivity. }
    split; [destruct XW as (z & L & W); exists z; split; auto; apply HS; auto; lia|]. split; auto.
    destruct neg eqn:EN.
    - exists 256%N. apply HI; auto. unfold MAXCP. lia.
    - destruct XW as (z & L & W). exists (Z.to_N z). apply EQ; [unfold MAXCP; lia|]. rewrite Z2N.id by lia. apply HS; auto. lia.
Qed.

Lemma class_reads_both I v bs neg s : canon MAXCP v -> (forall z, 0 <= z -> bs z = par v (Z.to_N z)) -> negated bs = neg ->
  (forall x, (256 <= x < MAXCP)%N -> (par v x = true <-> neg = true)) ->
  loop_inv I bs neg 257 s ->
  exists ts, cuts I (str "[" ++ end_text s ++ str "]") ts /\ ascii_text (str "[" ++ end_text s ++ str "]") /\ brace_next ts = false /\
    forall o, cased o = true -> exists n, charclass I o ts {| cs_cps := v; cs_bytes := bs_empty; cs_add := true |} n.
Proof.
  intros CV TP_ NEG HI (CA & LE & out & ts & S & EO & CU & AS & BO & CO). pose proof (class_sets v bs neg CV TP_ NEG HI) as SETS. unfold end_text. rewrite CA, EO.
    assert (BD : bound 257 s = 257). { unfold bound. destruct (Z.leb_spec (cl_left s) 255); auto. destruct LE as [(E & _)|(B & _ & AL & _)]; [lia|]. specialize (AL 256 ltac:(lia)). rewrite wanted_end in AL by lia. discriminate. }
    rewrite BD in *.
    remember (cl_hyphen s) as hy eqn:Ehy. clear Ehy. cbn iota.
    remember (if hy then [TChar 45] else []) as hts eqn:Ehts. remember (if hy then [45] else []) as htx eqn:Ehtx.
    assert (B2 : forall o pos, body I o pos (ts ++ hts) (fun z => S z \/ (hy = true /\ z = 45))).
    { intros o pos. rewrite Ehts. destruct hy.
      - apply (body_same I o pos _ (fun z => S z \/ z = 45)); [|intros z Hz; intuition]. apply body_add; auto. intros first. destruct (holds_char 45 ltac:(lia)) as (cs & E & HC). exists true, cs, 1%nat. split; auto. eapply el_char; eauto. reflexivity.
      - rewrite app_nil_r. apply (body_same I o pos _ S); auto. intros z Hz. intuition discriminate. }
    assert (S2 : forall z, 0 <= z -> ((S z \/ (hy = true /\ z = 45)) <-> wanted bs neg z = true)).
    { intros z Hz. rewrite (CO z Hz). split; [intros (Q & _); exact Q|]. intros Q. split; auto. destruct (Z_le_dec 256 z); [|lia]. rewrite wanted_end in Q by auto. discriminate. }
    destruct (SETS _ S2) as ((z0 & L0 & Z0) & EQ & NE).
    exists (TP 91 :: (if neg then [TP 94] else []) ++ (ts ++ hts) ++ [TP 93]). split; [|split; [|split; [reflexivity|]]].
  + intros r us K. change (str "[") with [91]. change (str "]") with [93]. rewrite <- !app_assoc. cbn [app]. apply cut_sign; [cbn; auto 20|].
      assert (T : cut_into I (out ++ htx ++ 93 :: r) (ts ++ hts ++ TP 93 :: us)).
      { assert (R : cut_into I (93 :: r) (TP 93 :: us)) by (apply cut_sign; auto; cbn; auto 20). rewrite Ehtx, Ehts. apply CU.
        - destruct hy; [exists 45, (93 :: r)|exists 93, r]; auto.
        - destruct hy; auto. apply (ci_next I [45] (93 :: r)); auto. apply pc_last_hyphen. right. reflexivity. }
      unfold pre. destruct neg; cbn [app]; [apply cut_sign; [cbn; auto 20|]|]; rewrite <- ?app_assoc; exact T.
  + apply ascii_app; [asc|]. apply ascii_app; [|asc]. apply ascii_app; [apply ascii_app; [|exact AS]|].
      * clear. unfold pre. destruct neg; asc.
      * rewrite Ehtx. clear. destruct hy; asc.
  + intros o CO'. apply (class_of_body I o v neg (ts ++ hts) (fun z => S z \/ (hy = true /\ z = 45))); auto. exists z0. split; auto. lia.
Qed.

Lemma class_reads_flat I v bs neg : canon MAXCP v -> (forall z, 0 <= z -> bs z = par v (Z.to_N z)) -> negated bs = neg ->
  (forall x, (256 <= x < MAXCP)%N -> (par v x = true <-> neg = true)) ->
  has_both bs = false ->
  exists ts, cuts I (str "[" ++ (if bs 0 then str "\x00-\xFF" else str "^\x00-\xFF") ++ str "]") ts /\ ascii_text (str "[" ++ (if bs 0 then str "\x00-\xFF" else str "^\x00-\xFF") ++ str "]") /\ brace_next ts = false /\
    forall o, cased o = true -> exists n, charclass I o ts {| cs_cps := v; cs_bytes := bs_empty; cs_add := true |} n.
Proof.
  intros CV TP_ NEG HI HB. pose proof (class_sets v bs neg CV TP_ NEG HI) as SETS.
  assert (EN : neg = negb (bs 0)) by (rewrite <- NEG; unfold negated; rewrite HB; auto).
    set (S := fun z => 0 <= z <= 255). assert (S2 : forall z, 0 <= z -> (S z <-> wanted bs neg z = true)).
    { intros z Hz. unfold S, wanted. destruct (Z.ltb_spec z 256) as [L|L]; cbn [andb]; [|split; [lia|discriminate]]. rewrite (both_false bs z HB) by lia. rewrite EN. destruct (bs 0); cbn; split; auto; lia. }
    destruct (SETS _ S2) as ((z0 & L0 & Z0) & EQ & NE).
    exists (TP 91 :: (if neg then [TP 94] else []) ++ [TChar 0; TP 45; TChar 255] ++ [TP 93]).
    assert (CT : forall r us, cut_into I r us -> cut_into I (str "\x00-\xFF" ++ 93 :: r) ([TChar 0; TP 45; TChar 255] ++ TP 93 :: us)).
    { intros r us K. apply (ci_next I (chars "\x" ++ [48; 48]) (45 :: chars "\x" ++ [70; 70] ++ 93 :: r)).
      - apply pc_hex. destruct (hex_text 0 ltac:(lia)) as (a & b & E & N & _). vm_compute in E. injection E as <- <-. exact N.
      - apply (ci_next I [45]).
        + apply pc_hyphen; [discriminate| |]; intros E; vm_compute in E; discriminate.
        + apply (ci_next I (chars "\x" ++ [70; 70])).
          * apply pc_hex. destruct (hex_text 255 ltac:(lia)) as (a & b & E & N & _). vm_compute in E. injection E as <- <-. exact N.
          * apply cut_sign; auto. cbn; auto 20. }
    split; [|split; [|split; [reflexivity|]]].
    + intros r us K. change (str "[") with [91]. change (str "]") with [93]. rewrite <- !app_assoc. cbn [app]. apply cut_sign; [cbn; auto 20|]. rewrite EN. destruct (bs 0); cbn [negb app]; [apply (CT r us K)|].
      apply (cut_sign I 94); [cbn; auto 20|]. apply (CT r us K).
    + destruct (bs 0); asc.
    + intros o CO'. apply (class_of_body I o v neg _ S); auto; [|exists z0; split; auto; lia].
      intros pos. apply (body_same I o pos _ (fun z => False \/ 0 <= z <= 255)); [|unfold S; intros; lia].
      apply (body_add I o pos [] (fun _ => False) [TChar 0; TP 45; TChar 255]); [left; auto| |reflexivity].
      intros first. destruct (holds_range 0 255 ltac:(lia) ltac:(lia)) as (cs & E & HC). exists false, cs, 1%nat. split; auto. eapply el_range; eauto; reflexivity.
Qed.

Lemma plain_class_reads I v : plain_class v -> class_reads I v.
Proof.
  intros (CV & HI & CR). unfold class_reads, class_text.
  assert (TP_ : forall z, 0 <= z -> low_bytes v z = par v (Z.to_N z)) by (intros z Hz; apply (test_par MAXCP); auto).
  assert (HI' : forall x, (256 <= x < MAXCP)%N -> (par v x = true <-> negated (low_bytes v) = true)).
  { intros x Hx. rewrite <- (HI x Hx). destruct (ranges_spec _ v CV) as (_ & Pc & _). unfold in_class. apply Pc. }
  clear HI. remember (low_bytes v) as bs eqn:Eb. clear Eb. remember (negated bs) as neg eqn:NEG. symmetry in NEG.
  destruct (has_both bs) eqn:HB.
  - rewrite (class_text_both bs HB). assert (EN : inverted bs = neg) by (rewrite <- NEG; unfold negated; rewrite HB; auto). rewrite EN.
    apply (class_reads_both I v bs neg); auto. apply loop_done.
    destruct CR as [Q|Q]; [left|right]; intros z Hz; unfold wanted; rewrite (Q z Hz); destruct (Z.ltb_spec z 256); try lia; cbn [andb]; destruct neg; reflexivity.
  - rewrite (class_text_flat bs HB). apply (class_reads_flat I v bs neg); auto.
Qed.
