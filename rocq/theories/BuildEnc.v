(** The leaves of a pattern with the encoders of EncModel.v: what each leaf matches, and that the
    builder makes fragments for it that match just that. *)
From Coq Require Import List NArith ZArith Bool Lia PeanoNat Sorting.Permutation Sorting.Sorted.
From Verif Require Import Base VmModel NfaModel CodegenSpec CodegenLayout RangeSetModel RangeSetProofs ByteSetModel ByteSetProofs
  Thm_ByteSet EncModel EncProofs EncUtf Thm_Enc PatModel PatSpec RewriteProofs BuildModel BuildSpec BuildProofs BuildTree BuildTail.
Import ListNotations.
Open Scope nat_scope.

(** * One-byte encodings come first *)

(** Among the rows for a class only the first can be a single byte set, as nfabuilder.cpp:205
    takes for granted. *)
Definition ones_first (vo : list (list bset)) : Prop := Forall (fun r => 2 <= length r) (tl vo).

Lemma set_at_len {A} (l l' : list A) i a : set_at l i a = Ok l' -> length l' = length l.
Proof. unfold set_at. destruct (i <? length l); [|discriminate]. intros [= <-]. apply upd_length. Qed.

Lemma absorb_len n skip : forall l e e' r, absorb n skip e l = Ok (e', r) -> length e' = length e /\ exists a, l = a ++ r.
Proof.
  induction l as [|v t IH]; intros e e' r; cbn [absorb].
  - intros [= <- <-]. split; auto. exists []; auto.
  - destruct (equal_except_at n e v); [|intros [= <- <-]; split; auto; exists []; auto].
    destruct (get e skip) as [s1| | |]; try discriminate. cbn [bind]. destruct (get v skip) as [s2| | |]; try discriminate. cbn [bind].
    destruct (set_at e skip (bs_or s1 s2)) as [e1| | |] eqn:Es; try discriminate. cbn [bind]. intros H.
    apply IH in H as (H1 & a & ->). split; [rewrite H1; eapply set_at_len; eauto|exists (v :: a); auto].
Qed.

Lemma absorb_ones : forall l e e' r, length e = 1 -> absorb 0 0 e l = Ok (e', r) -> r = [].
Proof.
  induction l as [|v t IH]; intros e e' r He; cbn [absorb].
  - intros [= <- <-]. auto.
  - assert (E : equal_except_at 0 e v = true) by (unfold equal_except_at; rewrite He; auto). rewrite E.
    destruct (get e 0) as [s1| | |]; try discriminate. cbn [bind]. destruct (get v 0) as [s2| | |]; try discriminate. cbn [bind].
    destruct (set_at e 0 (bs_or s1 s2)) as [e1| | |] eqn:Es; try discriminate. cbn [bind]. apply IH. rewrite (set_at_len _ _ _ _ Es). auto.
Qed.

Lemma collapse_group_len n skip (L : nat) : forall fuel l out, collapse_group fuel n skip l = Ok out -> Forall (fun r => length r = L) l ->
  Forall (fun r => length r = L) out.
Proof.
  induction fuel as [|k IH]; intros [|e t] out; cbn [collapse_group]; try discriminate; try (intros [= <-]; auto).
  destruct (absorb n skip e t) as [[e' r]| | |] eqn:Ea; try discriminate. cbn [bind].
  destruct (collapse_group k n skip r) as [out'| | |] eqn:Ec; try discriminate. cbn [bind]. intros [= <-] F. inversion F; subst.
  apply absorb_len in Ea as (E1 & a & ->). constructor; auto. eapply IH; eauto. match goal with H : Forall _ (a ++ r) |- _ => apply Forall_app in H; apply H end.
Qed.

Lemma collapse_group_ones : forall fuel l out, collapse_group fuel 0 0 l = Ok out -> Forall (fun r => length r = 1) l -> length out <= 1.
Proof.
  intros [|k] [|e t] out; cbn [collapse_group]; try discriminate; try (intros [= <-]; simpl; lia).
  destruct (absorb 0 0 e t) as [[e' r]| | |] eqn:Ea; try discriminate. cbn [bind]. intros H F. inversion F; subst.
  apply absorb_ones in Ea; auto. subst r. destruct k; cbn [collapse_group bind] in H; injection H as <-; simpl; lia.
Qed.

Section Sorts.
Variable sort : nat -> nat -> list (list bset) -> list (list bset).
Hypothesis sort_perm : forall a b l, Permutation l (sort a b l).

Lemma round_long n : forall fuel va out vb, collapse_round sort fuel n va = Ok (out, vb) -> Forall (fun r => 2 <= length r) va ->
  Forall (fun r => 2 <= length r) out /\ Forall (fun r => 2 <= length r) vb /\ (n = 0 -> out = []).
Proof.
  induction fuel as [|k IH]; intros va out vb; cbn [collapse_round]; destruct va as [|v va]; try discriminate; try (intros [= <- <-]; auto).
  destruct (length v <? n + 1) eqn:El; [discriminate|]. apply Nat.ltb_ge in El. destruct (span_len (length v) (v :: va)) as [grp rest] eqn:Es.
  pose proof (span_len_spec _ _ _ _ Es) as SP.
  destruct (collapse_group _ n _ _) as [og| | |] eqn:Eg; try discriminate. cbn [bind].
  destruct (collapse_round sort k n rest) as [[vo vb']| | |] eqn:Er; try discriminate. cbn [bind]. intros E F.
  assert (F0 : 2 <= length v) by (inversion F; auto).
  destruct SP as (SP1 & SP2 & _). rewrite SP1 in F. apply Forall_app in F as [F1 F2].
  destruct (IH rest vo vb' Er F2) as (I1 & I2 & I3).
  assert (G : Forall (fun r => length r = length v) og).
  { eapply collapse_group_len; [exact Eg|]. destruct (1 <? length v); auto. eapply Permutation_Forall; [apply sort_perm|auto]. }
  assert (G2 : Forall (fun r => 2 <= length r) og) by (eapply Forall_impl; [|exact G]; simpl; intros; lia).
  destruct (n =? length v - 1) eqn:En; injection E as <- <-.
  - apply Nat.eqb_eq in En. split; [apply Forall_app; auto|]. split; auto. intros; lia.
  - split; auto. split; auto. apply Forall_app; auto.
Qed.

Lemma round_pos n : forall fuel va out vb, collapse_round sort fuel n va = Ok (out, vb) -> Forall (fun r => 1 <= length r) va.
Proof.
  induction fuel as [|k IH]; intros va out vb; cbn [collapse_round]; destruct va as [|v va]; try discriminate; auto.
  destruct (length v <? n + 1) eqn:El; [discriminate|]. apply Nat.ltb_ge in El. destruct (span_len (length v) (v :: va)) as [grp rest] eqn:Es.
  destruct (collapse_group _ n _ _) as [og| | |] eqn:Eg; try discriminate. cbn [bind].
  destruct (collapse_round sort k n rest) as [[vo vb']| | |] eqn:Er; try discriminate. cbn [bind]. intros _.
  destruct (span_len_spec _ _ _ _ Es) as (SP1 & SP2 & _). rewrite SP1. apply Forall_app. split; [|eapply IH; eauto].
  eapply Forall_impl; [|exact SP2]. simpl; intros; lia.
Qed.

(** [va] has its one-byte rows first. *)
Definition grouped (va : list (list bset)) : Prop := exists a b, va = a ++ b /\ Forall (fun r => length r = 1) a /\ Forall (fun r => 2 <= length r) b.

Lemma span_ones : forall a b, Forall (fun r : list bset => length r = 1) a -> Forall (fun r => 2 <= length r) b -> span_len 1 (a ++ b) = (a, b).
Proof.
  induction a as [|v a IH]; intros b Fa Fb; cbn [app].
  - destruct b as [|v b]; auto. inversion Fb; subst. cbn [span_len]. destruct (Nat.eqb_spec (length v) 1); [lia|auto].
  - inversion Fa as [|? ? H1 H2]; subst. cbn [span_len]. rewrite H1. cbn [Nat.eqb]. rewrite IH; auto.
Qed.

Lemma round_ones fuel va out vb : collapse_round sort fuel 0 va = Ok (out, vb) -> grouped va ->
  length out <= 1 /\ Forall (fun r => 2 <= length r) vb.
Proof.
  intros E (a & b & -> & Fa & Fb). destruct a as [|v a].
  { apply round_long in E as (_ & E2 & E3); auto. rewrite E3 by auto. simpl; auto. }
  destruct fuel as [|k]; cbn [collapse_round app] in E; [discriminate|].
  assert (Hv : length v = 1) by (inversion Fa; auto). rewrite Hv in E. cbn [Nat.ltb Nat.leb Nat.add Nat.sub Nat.eqb] in E.
  change (v :: a ++ b) with ((v :: a) ++ b) in E. rewrite span_ones in E by auto.
  destruct (collapse_group _ 0 _ _) as [og| | |] eqn:Eg; try discriminate. cbn [bind] in E.
  destruct (collapse_round sort k 0 b) as [[vo vb']| | |] eqn:Er; try discriminate. cbn [bind] in E. injection E as <- <-.
  apply round_long in Er as (_ & E2 & E3); auto. rewrite E3, app_nil_r by auto. split; auto. apply (collapse_group_ones _ _ _ Eg). auto.
Qed.

Lemma collapse_long : forall k n va vo out, collapse sort k n va vo = Ok out -> Forall (fun r => 2 <= length r) va ->
  exists x, out = vo ++ x /\ Forall (fun r => 2 <= length r) x.
Proof.
  induction k as [|k IH]; intros n va vo out; cbn [collapse].
  - intros [= <-] _. exists []. rewrite app_nil_r. auto.
  - destruct (collapse_round sort (length va) n va) as [[o vb]| | |] eqn:Er; try discriminate. cbn [bind]. intros E F.
    apply round_long in Er as (E1 & E2 & _); auto. apply IH in E as (x & -> & Fx); auto. exists (o ++ x). rewrite app_assoc. split; auto. apply Forall_app; auto.
Qed.

Lemma collapse_ones k va out : grouped va -> collapse sort k 0 va [] = Ok out -> ones_first out.
Proof.
  intros G. destruct k as [|k]; cbn [collapse]; [intros [= <-]; constructor|].
  destruct (collapse_round sort (length va) 0 va) as [[o vb]| | |] eqn:Er; try discriminate. cbn [bind app]. intros E.
  apply round_ones in Er as (Ho & Fb); auto. apply collapse_long in E as (x & -> & Fx); auto. unfold ones_first.
  destruct o as [|r [|r' o]]; simpl in *; auto; [|lia]. destruct x; auto. inversion Fx; auto.
Qed.

(** ** The rows before collapsing *)
Lemma mapM_len {A B} (f : A -> res B) : forall l r, mapM f l = Ok r -> length r = length l.
Proof.
  induction l as [|a l IH]; intros r; cbn [mapM]; [intros [= <-]; auto|]. destruct (f a); try discriminate. cbn [bind].
  destruct (mapM f l) eqn:E; try discriminate. cbn [bind]. intros [= <-]. simpl. f_equal. apply IH; auto.
Qed.

Lemma block_len c v l h len bl v' l' : writeRangeBlock c v l h len bl = Ok (v', l') -> length v' = length v.
Proof.
  assert (U : forall pos, utfn_block pos v l h bl = Ok (v', l') -> length v' = length v).
  { intros pos. unfold utfn_block. destruct (_ && _); [|intros [= <- <-]; auto].
    destruct (get v pos) as [s| | |]; try discriminate. cbn [bind]. destruct (bs_set s _ _ true); try discriminate. cbn [bind].
    destruct (set_at v pos _) eqn:E; try discriminate. cbn [bind]. intros [= <- <-]. eapply set_at_len; eauto. }
  destruct c; cbn [writeRangeBlock]; [discriminate| |apply U|apply U]. unfold utf8_block. destruct (len =? 1).
  - destruct (get v (len - 1)) as [s| | |]; try discriminate. cbn [bind]. destruct (bs_set s _ _ true); try discriminate. cbn [bind].
    destruct (set_at v (len - 1) _) eqn:E; try discriminate. cbn [bind]. intros [= <- <-]. eapply set_at_len; eauto.
  - destruct (_ && _); [|intros [= <- <-]; auto].
    destruct (get v (len - 1)) as [s| | |]; try discriminate. cbn [bind]. destruct (bs_set s _ _ true); try discriminate. cbn [bind].
    destruct (set_at v (len - 1) _) eqn:E; try discriminate. cbn [bind]. intros [= <- <-]. eapply set_at_len; eauto.
Qed.

Lemma writeRange_len c len bl : forall n s s', writeRange c n s len bl = Ok s' -> exists x, c_va s' = x ++ c_va s /\ Forall (fun r => length r = len) x.
Proof.
  induction n as [|n IH]; intros s s'; cbn [writeRange]; [discriminate|].
  assert (Z : exists x, c_va s = x ++ c_va s /\ Forall (fun r : list bset => length r = len) x) by (exists []; auto).
  destruct (c_l s <? N.min (c_h s) bl)%N; [|intros [= <-]; auto].
  destruct (length (base_write c (Z.of_N (c_l s))) =? len) eqn:El; [|discriminate]. cbn [negb]. apply Nat.eqb_eq in El.
  destruct (mapM single _) as [v| | |] eqn:Em; try discriminate. cbn [bind]. apply mapM_len in Em.
  destruct (writeRangeBlock c v _ _ _ _) as [[v' l']| | |] eqn:Eb; try discriminate. cbn [bind]. apply block_len in Eb.
  assert (Hv : length v' = len) by congruence.
  assert (O : forall rs l h, exists x, c_va (mkC (v' :: c_va s) rs l h) = x ++ c_va s /\ Forall (fun r => length r = len) x).
  { intros. exists [v']. split; auto. }
  assert (R : forall rs l h s', writeRange c n (mkC (v' :: c_va s) rs l h) len bl = Ok s' -> exists x, c_va s' = x ++ c_va s /\ Forall (fun r => length r = len) x).
  { intros rs l h s1 H. apply IH in H as (x & -> & Fx). cbn [c_va]. exists (x ++ [v']). rewrite <- app_assoc. split; auto. apply Forall_app; auto. }
  destruct (l' <? c_h s)%N.
  - destruct (bl <=? l')%N; [intros [= <-]; apply O|apply R].
  - destruct (c_rs s) as [|q t]; [intros [= <-]; apply O|]. destruct t as [|[l2 h2] t]; [intros [= <-]; apply O|apply R].
Qed.

Lemma skip_va s u : c_va (skipRange s u) = c_va s.
Proof. unfold skipRange. destruct (_ <? _)%N; auto. destruct (c_rs s); auto. destruct (skip_loop _ _ _ _) as [[? ?] ?]. auto. Qed.

Lemma long_grouped va : Forall (fun r => 2 <= length r) va -> grouped va.
Proof. intros H. exists [], va. auto. Qed.

Lemma utf_grouped c u va : utf_collect c u = Ok va -> grouped (rev va).
Proof.
  unfold utf_collect. destruct (ranges u) as [|[l h] rs]; [intros [= <-]; apply long_grouped; constructor|].
  generalize (rounds ((l, h) :: rs)). intros n. cbv zeta. set (s0 := mkC [] ((l, h) :: rs) l h). assert (E0 : c_va s0 = []) by auto. clearbody s0.
  assert (W : forall n s len bl s', writeRange c n s len bl = Ok s' -> 2 <= len -> exists x, c_va s' = x ++ c_va s /\ Forall (fun r => 2 <= length r) x).
  { intros n' s len bl s' H Hl. apply writeRange_len in H as (x & -> & F). exists x. split; auto. eapply Forall_impl; [|exact F]. simpl; intros; lia. }
  destruct c as [| |le|le]; [discriminate| | |].
  - destruct (writeRange UTF8 n s0 1 128) as [s1| | |] eqn:E1; try discriminate. cbn [bind].
    destruct (writeRange UTF8 n s1 2 2048) as [s2| | |] eqn:E2; try discriminate. cbn [bind].
    destruct (writeRange UTF8 n s2 3 55296) as [s3| | |] eqn:E3; try discriminate. cbn [bind].
    destruct (writeRange UTF8 n (skipRange s3 57344) 3 65536) as [s4| | |] eqn:E4; try discriminate. cbn [bind].
    destruct (writeRange UTF8 n s4 4 1114112) as [s5| | |] eqn:E5; try discriminate. cbn [bind]. intros [= <-].
    apply writeRange_len in E1 as (x1 & H1 & F1).
    apply W in E2 as (x2 & H2 & F2); [|lia]. apply W in E3 as (x3 & H3 & F3); [|lia]. apply W in E4 as (x4 & H4 & F4); [|lia]. apply W in E5 as (x5 & H5 & F5); [|lia].
    rewrite skip_va in H4. rewrite E0, app_nil_r in H1. rewrite H5, H4, H3, H2, H1, !app_assoc, rev_app_distr.
    eexists _, _. split; [reflexivity|]. split; [apply Forall_rev; auto|]. apply Forall_rev. repeat (apply Forall_app; split; auto).
  - destruct (writeRange (UTF16 le) n s0 2 55296) as [s1| | |] eqn:E1; try discriminate. cbn [bind].
    destruct (writeRange (UTF16 le) n (skipRange s1 57344) 2 65536) as [s2| | |] eqn:E2; try discriminate. cbn [bind].
    destruct (writeRange (UTF16 le) n s2 4 1114112) as [s3| | |] eqn:E3; try discriminate. cbn [bind]. intros [= <-].
    apply W in E1 as (x1 & H1 & F1); [|lia]. apply W in E2 as (x2 & H2 & F2); [|lia]. apply W in E3 as (x3 & H3 & F3); [|lia]. rewrite skip_va in H2.
    apply long_grouped, Forall_rev. rewrite H3, H2, H1, E0. repeat (apply Forall_app; split; auto).
  - destruct (writeRange (UTF32 le) n s0 4 55296) as [s1| | |] eqn:E1; try discriminate. cbn [bind].
    destruct (writeRange (UTF32 le) n (skipRange s1 57344) 4 1114112) as [s2| | |] eqn:E2; try discriminate. cbn [bind]. intros [= <-].
    apply W in E1 as (x1 & H1 & F1); [|lia]. apply W in E2 as (x2 & H2 & F2); [|lia]. rewrite skip_va in H2.
    apply long_grouped, Forall_rev. rewrite H2, H1, E0. repeat (apply Forall_app; split; auto).
Qed.

Lemma sorted_grouped va : StronglySorted (fun a b : list bset => length a <= length b) va -> Forall (fun r => 1 <= length r) va -> grouped va.
Proof.
  induction va as [|v va IH]; intros S F; [apply long_grouped; constructor|]. inversion S as [|? ? S1 S2]; subst. inversion F as [|? ? F1 F2]; subst.
  destruct (Nat.eq_dec (length v) 1) as [E|E].
  - destruct (IH S1 F2) as (a & b & -> & Fa & Fb). exists (v :: a), b. auto.
  - apply long_grouped. constructor; [lia|]. eapply Forall_impl; [|exact S2]. simpl; intros; lia.
Qed.

Variable sort_len : list (list bset) -> list (list bset).
Hypothesis sort_len_sorted : forall l, StronglySorted (fun a b => length a <= length b) (sort_len l).

Lemma write_set_ones e u vo : enc_write_set sort sort_len e u = Ok vo -> ones_first vo.
Proof.
  assert (C : forall e, (va <- collect_ranges (enc_write e) (ranges u) [] [] ;; collapse sort (maxByteLength e) 0 (sort_len (rev va)) []) = Ok vo -> ones_first vo).
  { intros e0. destruct (collect_ranges _ _ _ _) as [va| | |]; try discriminate. cbn [bind]. pose proof (max_len_pos e0) as Hm. destruct (maxByteLength e0) as [|m] eqn:Em; [lia|].
    intros E. eapply (collapse_ones (S m)); [|exact E]. apply sorted_grouped; auto. cbn [collapse] in E.
    destruct (collapse_round _ _ _ _) as [[o vb]| | |] eqn:Er; try discriminate. eapply round_pos; eauto. }
  assert (U : forall c, (va <- utf_collect c u ;; collapse sort (maxByteLength (EBase c)) 0 (rev va) []) = Ok vo -> ones_first vo).
  { intros c. destruct (utf_collect c u) as [va| | |] eqn:Ec; try discriminate. cbn [bind]. apply collapse_ones. apply (utf_grouped _ _ _ Ec). }
  destruct e as [[| | |]|e|k e|r e]; unfold enc_write_set; try apply U; try apply C.
  destruct (ascii_ranges _ _) as [s| | |]; try discriminate. cbn [bind]. intros [= <-]. constructor.
Qed.
End Sorts.

(** * Byte sets with members *)
Lemma bs_any_spec s : bs_wf s -> (bs_any s = true <-> exists b, (b < 256)%N /\ tb s b = true).
Proof.
  intros (L & F). unfold bs_any. rewrite negb_true_iff. split.
  - intros H. assert (E : exists x, In x s /\ x <> 0%N).
    { clear L F. induction s as [|x s IH]; [discriminate|]. cbn [forallb] in H. destruct (N.eqb_spec x 0) as [->|]; [|exists x; simpl; auto].
      destruct IH as (y & ? & ?); auto. exists y; simpl; auto. }
    destruct E as (x & Hx & Hn). apply In_nth with (d := 0%N) in Hx as (k & Hk & Ex).
    assert (Hx : (x < 256)%N) by (rewrite Forall_forall in F; subst x; apply F, nth_In; auto).
    assert (H8 : (N.log2 x < 8)%N) by (apply N.log2_lt_pow2; [lia|exact Hx]).
    exists (8 * N.of_nat k + N.log2 x)%N. split; [lia|]. unfold tb.
    replace ((8 * N.of_nat k + N.log2 x) / 8)%N with (N.of_nat k) by (apply N.div_unique with (N.log2 x); lia).
    replace ((8 * N.of_nat k + N.log2 x) mod 8)%N with (N.log2 x) by (apply N.mod_unique with (N.of_nat k); lia).
    rewrite Nat2N.id, Ex. apply N.bit_log2. auto.
  - intros (b & Hb & T). destruct (forallb _ s) eqn:E; auto. rewrite forallb_forall in E. unfold tb in T.
    assert (Z : nth (N.to_nat (b / 8)) s 0%N = 0%N).
    { destruct (Nat.lt_ge_cases (N.to_nat (b / 8)) (length s)) as [H|H]; [|apply nth_overflow; auto]. apply N.eqb_eq, E, nth_In. auto. }
    rewrite Z, N.bits_0 in T. discriminate.
Qed.

Lemma bs_any_false s b : bs_wf s -> bs_any s = false -> (b < 256)%N -> tb s b = false.
Proof. intros W H Hb. destruct (tb s b) eqn:E; auto. rewrite (proj2 (bs_any_spec s W)) in H; [discriminate|]. eauto. Qed.

Lemma num_set_ok s : bs_wf s -> bs_any s = true -> set_ok (bs_num s).
Proof.
  intros W H. apply (bs_any_spec s W) in H as (b & Hb & T). split.
  - intros E. rewrite <- (bs_num_spec s b W), E, N.bits_0 in T. discriminate.
  - destruct W as (L & F). unfold bs_num. pose proof (le_num_bound s F) as B. rewrite L in B. exact B.
Qed.

Lemma vmatch_one s w : vmatch [s] w <-> exists b, w = [b] /\ (b < 256)%N /\ tb s b = true.
Proof.
  unfold vmatch. split.
  - intros H. inversion H as [|? b ? w' H1 H2]; subst. inversion H2; subst. exists b. tauto.
  - intros (b & -> & H). constructor; auto.
Qed.

Lemma vmatch_any row : Forall bs_wf row -> ((exists w, vmatch row w) <-> Forall (fun s => bs_any s = true) row).
Proof.
  induction row as [|s row IH]; intros F.
  - split; [constructor|exists []; constructor].
  - inversion F as [|? ? W F']; subst. rewrite Forall_cons_iff, <- IH by auto. rewrite (bs_any_spec s W). split.
    + intros (w & M). inversion M; subst; eauto.
    + intros ((b & Hb) & (w & M)). exists (b :: w). constructor; auto.
Qed.

(** * What the leaves match *)
Definition in_class (cps : rset) (cp : N) : Prop := inrs (ranges cps) cp.

Definition enc_atom (e : encoder) (a : atom) (w : list N) : Prop :=
  match a with
  | ADot => exists cp, (cp < 1114112)%N /\ encodes e (Z.of_N cp) w
  | AClass cps bytes true =>
      (exists cp, in_class cps cp /\ encodes e (Z.of_N cp) w) \/ (exists b, w = [b] /\ has bytes b)
  | AClass cps bytes false =>
      (exists cp, in_class cps cp /\ encodes e (Z.of_N cp) w) /\ ~ (exists b, w = [b] /\ has bytes b)
  | ALit cp => encodes e cp w
  | AByte b => w = [b]
  end.

(** The classes are RangeSets and ByteSets as their operations leave them, bytes are bytes. *)
Definition atom_ok (a : atom) : Prop :=
  match a with
  | ADot | ALit _ => True
  | AClass cps bytes _ => canon 1114112 cps /\ bs_wf bytes
  | AByte b => (b < 256)%N
  end.

Lemma inrs_bound M x : forall v, Forall (fun a => (a <= M)%N) v -> inrs (ranges v) x -> (x < M)%N.
Proof.
  intros v F (a & b & Hi & H). assert (Hb : (b <= M)%N); [|lia].
  assert (G : forall n v, length v <= n -> Forall (fun a => (a <= M)%N) v -> In (a, b) (ranges v) -> (b <= M)%N).
  { clear. induction n as [|n IH]; intros [|c [|d t]] Hl F; cbn [ranges]; try easy; try (simpl in Hl; lia).
    inversion F as [|? ? F1 F2]; subst. inversion F2; subst. intros [[= <- <-]|Hi]; auto. apply (IH t); auto. simpl in Hl; lia. }
  eapply G; eauto.
Qed.

Section Encoder.
Variable e : encoder.
Variable ws : rset -> res (list (list bset)).
Hypothesis OK : enc_ok e.

(** What is needed of write(uset, vo). *)
Definition writes_sets : Prop := forall u, canon 1114112 u -> (forall x, par u x = true -> par (validCodePoints e) x = true) -> (exists x, par u x = true) ->
  exists vo, ws u = Ok vo /\ Forall (vgood (maxByteLength e)) vo /\ ones_first vo /\
    forall w, EncProofs.lang vo w <-> exists x, par u x = true /\ enc_write e (Z.of_N x) = w.
Hypothesis HW : writes_sets.

Definition enc_of : enc_if := mkEnc (enc_write e) (validCodePoints e) ws.

Definition class_rows (cps : rset) (bytes : bset) (additive : bool) : res (list (list bset)) :=
  uset <- rs_and 1114112 cps (validCodePoints e) ;;
  if negb (rs_any uset) then
    if negb additive || negb (bs_any bytes) then Throw else Ok [[bytes]]
  else rows <- ws uset ;; breakout rows bytes additive.

Definition row_good (row : list bset) : Prop := row <> [] /\ Forall bs_wf row /\ Forall (fun s => bs_any s = true) row.

Lemma vgood_row m r : vgood m r -> row_good r.
Proof. intros (W & L & M). split; [destruct r; [simpl in L; lia|discriminate]|]. split; auto. apply vmatch_any; auto. Qed.

Lemma has_tb s b : bs_wf s -> (has s b <-> (b < 256)%N /\ tb s b = true).
Proof.
  intros W. unfold has. split.
  - intros H. destruct (N.lt_ge_cases b 256) as [Hb|Hb]; [rewrite (test_tb s b W Hb) in H; injection H; auto|].
    exfalso. revert H. unfold bs_test. destruct (N.leb_spec 256 b); [discriminate|lia].
  - intros (Hb & T). rewrite (test_tb s b W Hb). congruence.
Qed.

Lemma rs_any_par M u : canon M u -> (rs_any u = true <-> exists x, par u x = true).
Proof.
  intros C. destruct (ranges_spec M u C) as (O & P & _). destruct u as [|a [|b t]].
  - simpl. split; [discriminate|]. intros (x & H). discriminate H.
  - destruct C as [_ He _]; discriminate.
  - split; auto. intros _. exists a. apply P. exists a, b. split; [left; auto|].
    destruct (even_SS_tail _ _ _ _ C) as (_ & Hab & _). lia.
Qed.

Lemma class_rows_spec cps bytes additive : canon 1114112 cps -> bs_wf bytes ->
  match class_rows cps bytes additive with
  | Ok rows => rows <> [] /\ Forall row_good rows /\ forall w, EncProofs.lang rows w <-> enc_atom e (AClass cps bytes additive) w
  | Throw => forall w, ~ enc_atom e (AClass cps bytes additive) w
  | _ => False
  end.
Proof.
  intros C W. unfold class_rows. destruct (and_spec 1114112 cps (validCodePoints e)) as (u & -> & Cu & Pu); [lia|auto|apply valid_canon|]. cbn [bind].
  assert (PU : forall x, par u x = true <-> in_class cps x /\ par (validCodePoints e) x = true).
  { intros x. destruct (ranges_spec _ cps C) as (_ & Pc & _). unfold in_class. rewrite <- Pc.
    destruct (N.lt_ge_cases x 1114112) as [Hx|Hx]; [rewrite Pu by auto; apply andb_true_iff|].
    assert (Z : forall v, canon 1114112 v -> par v x = false).
    { intros v Cv. destruct (par v x) eqn:E; auto. apply (ranges_spec _ v Cv) in E. apply (inrs_bound 1114112) in E; [lia|apply Cv]. }
    rewrite (Z u Cu), (Z cps C). intuition discriminate. }
  assert (ENC : forall w, (exists cp, in_class cps cp /\ encodes e (Z.of_N cp) w) <-> exists x, par u x = true /\ enc_write e (Z.of_N x) = w).
  { intros w. split; intros (x & H1 & H2); exists x.
    - apply (encodes_iff e OK) in H2 as (H2 & H3). split; auto. apply PU. split; auto. apply valid_iff. congruence.
    - apply PU in H1 as (H1 & H3). split; auto. apply (encodes_iff e OK). split; auto. apply valid_iff in H3. congruence. }
  destruct (rs_any u) eqn:Ea; cbn [negb].
  - apply (rs_any_par _ u Cu) in Ea. destruct (HW u Cu) as (vo & -> & G & O1 & LV); auto; [intros x Hx; apply PU in Hx; tauto|]. cbn [bind].
    assert (RG : Forall row_good vo) by (eapply Forall_impl; [|exact G]; intros; eapply vgood_row; eauto).
    assert (NE : vo <> []).
    { destruct Ea as (x & Hx). intros ->. destruct (proj2 (LV (enc_write e (Z.of_N x)))) as (? & [] & _). eauto. }
    assert (LE : forall w, EncProofs.lang vo w <-> exists cp, in_class cps cp /\ encodes e (Z.of_N cp) w) by (intros w; rewrite LV, ENC; tauto).
    clear LV ENC PU Pu Cu Ea G. unfold breakout. destruct (bs_any bytes) eqn:Eb.
    2:{ split; auto. split; auto. intros w. rewrite LE. assert (NB : ~ exists b, w = [b] /\ has bytes b).
        { intros (b & _ & Hb). apply (has_tb _ _ W) in Hb as (Hb & T). rewrite (bs_any_false bytes b W Eb Hb) in T. discriminate. }
        destruct additive; cbn [enc_atom]; tauto. }
    destruct vo as [|row0 rest]; [congruence|]. inversion RG as [|? ? R0 RR]; subst.
    assert (BY : forall w, vmatch [bytes] w <-> exists b, w = [b] /\ has bytes b).
    { intros w. rewrite vmatch_one. split; intros (b & E & H); exists b; split; auto; apply (has_tb _ _ W); auto. }
    assert (REST : forall w, EncProofs.lang rest w -> ~ exists b, w = [b] /\ has bytes b).
    { intros w (r & Hr & M) (b & -> & _). apply vmatch_length in M. unfold ones_first in O1; cbn [tl] in O1. rewrite Forall_forall in O1. apply O1 in Hr. simpl in M. lia. }
    assert (OTHER : length row0 <> 1 -> forall w, EncProofs.lang (row0 :: rest) w -> ~ exists b, w = [b] /\ has bytes b).
    { intros Hl w Lw. apply lang_cons in Lw as [M|]; [|auto]. intros (b & -> & _). apply vmatch_length in M. simpl in M. congruence. }
    assert (APP : Forall row_good ((row0 :: rest) ++ [[bytes]])).
    { apply Forall_app. split; auto. constructor; auto. split; [discriminate|]. split; repeat constructor; auto; apply W. }
    assert (LAPP : forall w, EncProofs.lang ((row0 :: rest) ++ [[bytes]]) w <-> enc_atom e (AClass cps bytes true) w).
    { intros w. rewrite lang_app, LE, lang_cons, BY, EncProofs.lang_nil. cbn [enc_atom]. tauto. }
    destruct row0 as [|s [|s' row0]].
    + exfalso. apply (proj1 R0). auto.
    + destruct R0 as (_ & W0 & A0). inversion W0 as [|? ? Ws _]; subst. inversion A0 as [|? ? As _]; subst. destruct additive.
      * destruct (or_spec_bs s bytes Ws W) as (Wo & To). split; [discriminate|]. split.
        { constructor; auto. split; [discriminate|]. split; repeat constructor; auto; try apply Wo. apply (bs_any_spec _ Wo).
          apply (bs_any_spec _ Ws) in As as (b & Hb & Tb). exists b. split; auto. rewrite To, Tb by auto. auto. }
        intros w. cbn [enc_atom]. rewrite <- LE, !lang_cons, !vmatch_one.
        assert (X : (exists b, w = [b] /\ has bytes b) <-> exists b, w = [b] /\ (b < 256)%N /\ tb bytes b = true).
        { split; intros (b & -> & H); exists b; split; auto; apply (has_tb _ _ W); auto. }
        rewrite X. split.
        -- intros [(b & -> & Hb & Tb)|]; [|tauto]. rewrite To in Tb by auto. apply orb_true_iff in Tb as [|]; [left; left|right]; exists b; auto.
        -- intros [[(b & -> & Hb & Tb)|]|(b & -> & Hb & Tb)]; [left|tauto|left]; exists b; rewrite To, Tb by auto; auto using orb_true_r.
      * assert (SUB : bs_wf (bs_sub s bytes) /\ forall i, (i < 256)%N -> tb (bs_sub s bytes) i = tb s i && negb (tb bytes i)).
        { destruct (not_spec bytes W) as (Wn & Tn). destruct (map2_spec N.land andb s (bs_not bytes)) as (Wa & Ta); auto; [intros; apply N.land_spec|].
          split; [exact Wa|]. intros i Hi. etransitivity; [apply Ta; auto|]. rewrite Tn by auto. auto. }
        destruct SUB as (Wd & Td).
        assert (LS : forall w, vmatch [bs_sub s bytes] w <-> vmatch [s] w /\ ~ exists b, w = [b] /\ has bytes b).
        { intros w. rewrite !vmatch_one. split.
          - intros (b & -> & Hb & T). rewrite Td in T by auto. apply andb_true_iff in T as (T1 & T2). split; [eauto|].
            intros (b' & [= <-] & H). apply (has_tb _ _ W) in H as (_ & H). rewrite H in T2. discriminate.
          - intros ((b & -> & Hb & T) & N). exists b. split; auto. split; auto. rewrite Td, T by auto. destruct (tb bytes b) eqn:Et; auto.
            exfalso. apply N. exists b. split; auto. apply (has_tb _ _ W). auto. }
        assert (LALL : forall w, vmatch [bs_sub s bytes] w \/ EncProofs.lang rest w <-> enc_atom e (AClass cps bytes false) w).
        { intros w. cbn [enc_atom]. rewrite <- LE, lang_cons, LS. pose proof (REST w). tauto. }
        destruct (bs_any (bs_sub s bytes)) eqn:Ed.
        { split; [discriminate|]. split.
          - constructor; auto. split; [discriminate|]. split; repeat constructor; auto; apply Wd.
          - intros w. rewrite lang_cons. apply LALL. }
        assert (ND : forall w, ~ vmatch [bs_sub s bytes] w).
        { intros w M. apply vmatch_one in M as (b & _ & Hb & T). rewrite (bs_any_false _ b Wd Ed Hb) in T. discriminate. }
        destruct rest as [|r rest].
        { intros w H. apply LALL in H as [H|H]; [exact (ND w H)|]. apply EncProofs.lang_nil in H. auto. }
        split; [discriminate|]. split; auto. intros w. rewrite <- LALL. specialize (ND w). tauto.
    + destruct additive; [split; [discriminate|split; auto]|]. split; [discriminate|]. split; auto. intros w. rewrite LE. cbn [enc_atom].
      pose proof (OTHER ltac:(simpl; lia) w) as O2. rewrite LE in O2. tauto.
  - assert (NU : forall w, ~ exists cp, in_class cps cp /\ encodes e (Z.of_N cp) w).
    { intros w H. apply ENC in H as (x & Hx & _). assert (T : rs_any u = true) by (apply (rs_any_par _ u Cu); eauto). congruence. }
    destruct additive; cbn [negb orb].
    + destruct (bs_any bytes) eqn:Eb; cbn [negb].
      * split; [discriminate|]. split.
        { constructor; auto. split; [discriminate|]. split; repeat constructor; auto; apply W. }
        intros w. cbn [enc_atom]. rewrite lang_cons, EncProofs.lang_nil, vmatch_one. split.
        -- intros [(b & -> & H)|[]]. right. exists b. split; auto. apply (has_tb _ _ W). auto.
        -- intros [H|(b & -> & H)]; [exfalso; eapply NU; eauto|]. left. exists b. split; auto. apply (has_tb _ _ W). auto.
      * intros w [H|(b & -> & H)]; [eapply NU; eauto|]. apply (has_tb _ _ W) in H as (Hb & T). rewrite (bs_any_false bytes b W Eb Hb) in T. discriminate.
    + intros w (H & _). eapply NU; eauto.
Qed.

(** * The leaves as rows of byte sets *)
Definition nonnil {A} (l : list A) : bool := match l with [] => false | _ => true end.
Definition rows_or_none (r : res (list (list bset))) : list (list N) := match r with Ok rows => map (map bs_num) rows | _ => [] end.

Definition atom_rows (a : atom) : list (list N) :=
  filter nonnil (match a with
  | ADot => rows_or_none (class_rows [0; 1114112]%N bs_empty true)
  | AClass cps bytes additive => rows_or_none (class_rows cps bytes additive)
  | ALit cp => [map (N.setbit 0) (enc_write e cp)]
  | AByte b => [[N.setbit 0 b]]
  end).

(** The rests of [w] behind the leaf. *)
Definition atom_rests (a : atom) (w : word) : list word := flat_map (fun row => row_rest row w) (atom_rows a).
Definition atom_none (a : atom) : Prop := atom_rows a = [].
Definition row_atom (a : atom) (w : word) : Prop := In [] (atom_rests a w).

Lemma row_rest_split row : forall w r, In r (row_rest row w) <-> exists p, w = p ++ r /\ In [] (row_rest row p).
Proof.
  induction row as [|s row IH]; intros w r; cbn [row_rest].
  - split; [intros [->|[]]; exists []; simpl; auto|]. intros (p & -> & [->|[]]). simpl; auto.
  - destruct w as [|b w].
    + split; [easy|]. intros (p & E & H). symmetry in E. apply app_eq_nil in E as [-> ->]. destruct H.
    + split.
      * destruct (N.testbit s b) eqn:Eb; [|easy]. intros H. apply IH in H as (p & -> & H). exists (b :: p). cbn [app]. rewrite Eb. auto.
      * intros ([|c p] & E & H); [destruct H|]. injection E as -> ->. destruct (N.testbit s c); [|destruct H]. apply IH. eauto.
Qed.

Lemma row_nonempty : leaves_nonempty row_atom.
Proof.
  intros a H. unfold row_atom, atom_rests in H. apply in_flat_map in H as (row & Hr & H). unfold atom_rows in Hr. apply filter_In in Hr as (_ & Hn).
  destruct row; [discriminate|destruct H].
Qed.

Lemma row_leaves : leaves_ok row_atom atom_rests.
Proof.
  intros a w r. split.
  - intros H. unfold atom_rests in H. apply in_flat_map in H as (row & Hr & H). apply row_rest_split in H as (p & -> & H). exists p. split; auto.
    assert (R : row_atom a p) by (unfold row_atom, atom_rests; apply in_flat_map; eauto). split; auto. intros ->. eapply row_nonempty; eauto.
  - intros (p & -> & _ & H). unfold row_atom, atom_rests in *. apply in_flat_map in H as (row & Hr & H). apply in_flat_map. exists row. split; auto. apply row_rest_split. eauto.
Qed.

Lemma row_rest_match row w : Forall bs_wf row -> (In [] (row_rest (map bs_num row) w) <-> vmatch row w).
Proof.
  revert w. induction row as [|s row IH]; intros w F; cbn [map row_rest].
  - split; [intros [->|[]]; constructor|]. intros M; inversion M; subst. left; auto.
  - inversion F as [|? ? W F']; subst. destruct w as [|b w].
    + split; [easy|]. intros M; inversion M.
    + rewrite (bs_num_spec s b W). split.
      * destruct (tb s b) eqn:Et; [|easy]. intros H. constructor; [|apply IH; auto]. split; auto.
        destruct (N.lt_ge_cases b 256) as [|Hb]; auto. exfalso. unfold tb in Et. rewrite nth_overflow, N.bits_0 in Et; [discriminate|]. destruct W as (-> & _).
        assert ((256 / 8 <= b / 8)%N) by (apply N.div_le_mono; lia). change (256 / 8)%N with 32%N in *. lia.
      * intros M. inversion M as [|? ? ? ? (Hb & Ht) M']; subst. rewrite Ht. apply IH; auto.
Qed.

Lemma rows_none_iff rows : map (map bs_num) rows = [] <-> rows = [].
Proof. destruct rows; simpl; split; congruence. Qed.

Lemma filter_all {A} (f : A -> bool) l : Forall (fun x => f x = true) l -> filter f l = l.
Proof. induction 1 as [|x l Hx Hl IH]; auto. simpl. rewrite Hx, IH. auto. Qed.

Lemma good_rows_filter rows : Forall row_good rows -> filter nonnil (map (map bs_num) rows) = map (map bs_num) rows.
Proof.
  intros F. apply filter_all. apply Forall_map. eapply Forall_impl; [|exact F]. intros [|s r] (H & _); auto. 
Qed.

Lemma good_rows_lang rows w : Forall row_good rows -> (In [] (flat_map (fun row => row_rest row w) (map (map bs_num) rows)) <-> EncProofs.lang rows w).
Proof.
  intros F. rewrite Forall_forall in F. rewrite in_flat_map. unfold EncProofs.lang. split.
  - intros (r & Hr & H). apply in_map_iff in Hr as (row & <- & Hr). exists row. split; auto. apply row_rest_match; auto. apply F; auto.
  - intros (row & Hr & M). exists (map bs_num row). split; [apply in_map; auto|]. apply row_rest_match; auto. apply F; auto.
Qed.

Lemma setbit_bytes w p : (In [] (row_rest (map (N.setbit 0) w) p) <-> p = w).
Proof.
  revert p. induction w as [|b w IH]; intros [|c p]; cbn [map row_rest].
  - simpl; tauto.
  - simpl. split; [intros [|[]]; congruence|discriminate].
  - split; [easy|discriminate].
  - rewrite N.setbit_eqb, N.bits_0, orb_false_r. destruct (N.eqb_spec b c) as [<-|Hn]; [rewrite IH|]; split; try easy; congruence.
Qed.

Definition is_dot_class (a : atom) : option (rset * bset * bool) :=
  match a with ADot => Some ([0; 1114112]%N, bs_empty, true) | AClass c b ad => Some (c, b, ad) | _ => None end.

Lemma dot_canon : canon 1114112 [0; 1114112]%N.
Proof. apply canon_full. lia. Qed.

Lemma dot_class w : enc_atom e ADot w <-> enc_atom e (AClass [0; 1114112]%N bs_empty true) w.
Proof.
  cbn [enc_atom]. unfold in_class. cbn [ranges]. split.
  - intros (cp & H & HE). left. exists cp. split; auto. apply inrs1. lia.
  - intros [(cp & H & HE)|(b & _ & H)]; [exists cp; split; auto; apply inrs1 in H; lia|].
    apply (has_tb _ _ empty_wf) in H as (Hb & H). rewrite empty_tb in H by auto. discriminate.
Qed.

Lemma row_atom_spec a : atom_ok a -> forall w, row_atom a w <-> enc_atom e a w.
Proof.
  intros HA w. unfold row_atom, atom_rests, atom_rows.
  assert (CL : forall c b ad, canon 1114112 c -> bs_wf b ->
    (In [] (flat_map (fun row => row_rest row w) (filter nonnil (rows_or_none (class_rows c b ad)))) <-> enc_atom e (AClass c b ad) w)).
  { intros c b ad HC HB. pose proof (class_rows_spec c b ad HC HB) as H. destruct (class_rows c b ad) as [rows| | |]; cbn [rows_or_none]; try easy.
    - destruct H as (_ & G & L). rewrite good_rows_filter, good_rows_lang by auto. apply L.
    - split; [easy|]. intros X. exfalso. eapply H; eauto. }
  destruct a as [|c b ad|cp|b].
  - rewrite dot_class. apply CL; [apply dot_canon|apply empty_wf].
  - destruct HA. apply CL; auto.
  - cbn [enc_atom]. rewrite (encodes_iff e OK). destruct (enc_write e cp) as [|x l] eqn:Ew.
    + simpl. split; [easy|]. intros (<- & H). congruence.
    + cbn [filter nonnil map flat_map]. rewrite app_nil_r. change (N.setbit 0 x :: map (N.setbit 0) l) with (map (N.setbit 0) (x :: l)). rewrite setbit_bytes.
      split; [intros ->; split; congruence|intros (<- & _); auto].
  - cbn [enc_atom filter nonnil flat_map]. rewrite app_nil_r. apply (setbit_bytes [b]).
Qed.

Lemma atom_none_spec a : atom_ok a -> (atom_none a <-> forall w, ~ enc_atom e a w).
Proof.
  intros HA. split.
  - intros E w H. apply (row_atom_spec a HA) in H. unfold row_atom, atom_rests in H. rewrite E in H. destruct H.
  - intros H. unfold atom_none, atom_rows.
    assert (CL : forall c b ad, canon 1114112 c -> bs_wf b -> (forall w, ~ enc_atom e (AClass c b ad) w) -> filter nonnil (rows_or_none (class_rows c b ad)) = []).
    { intros c b ad HC HB X. pose proof (class_rows_spec c b ad HC HB) as K. destruct (class_rows c b ad) as [rows| | |]; cbn [rows_or_none]; try easy.
      destruct K as (NE & G & L). destruct rows as [|r rows]; [congruence|]. inversion G as [|? ? G1 _]; subst. exfalso.
      destruct (proj2 (vmatch_any r (proj1 (proj2 G1)))) as (w & M); [apply G1|]. apply (X w), L, lang_cons. auto. }
    destruct a as [|c b ad|cp|b].
    + apply CL; [apply dot_canon|apply empty_wf|]. intros w. rewrite <- dot_class. auto.
    + destruct HA. apply CL; auto.
    + destruct (enc_write e cp) as [|x l] eqn:Ew; auto. exfalso. apply (H (x :: l)). cbn [enc_atom]. apply (encodes_iff e OK). split; congruence.
    + exfalso. apply (H [b]). reflexivity.
Qed.

Lemma atom_some a : atom_ok a -> ~ atom_none a -> exists w, enc_atom e a w.
Proof.
  intros HA H. destruct (atom_rows a) as [|row rows] eqn:Er; [exfalso; auto|].
  assert (Hr : In row (atom_rows a)) by (rewrite Er; left; auto).
  assert (L : forall row, (forall s, In s row -> exists b, N.testbit s b = true) -> exists w, In [] (row_rest row w)).
  { clear. induction row as [|s row IH]; intros H; [exists []; simpl; auto|]. destruct (H s) as (b & Hb); [left; auto|].
    destruct IH as (w & Hw); [intros; apply H; right; auto|]. exists (b :: w). cbn [row_rest]. rewrite Hb. auto. }
  assert (CL : forall c b ad, canon 1114112 c -> bs_wf b -> In row (filter nonnil (rows_or_none (class_rows c b ad))) -> forall s, In s row -> exists b, N.testbit s b = true).
  { intros c b ad HC HB Hi s Hs. pose proof (class_rows_spec c b ad HC HB) as K. destruct (class_rows c b ad) as [rws| | |]; cbn [rows_or_none] in Hi; try destruct Hi.
    destruct K as (_ & G & _). rewrite good_rows_filter in Hi by auto. apply in_map_iff in Hi as (r & <- & Hi). apply in_map_iff in Hs as (s' & <- & Hs).
    rewrite Forall_forall in G. destruct (G r Hi) as (_ & W & AN). rewrite Forall_forall in W, AN. destruct (proj1 (bs_any_spec s' (W s' Hs)) (AN s' Hs)) as (x & _ & Hx).
    exists x. rewrite bs_num_spec; auto. }
  assert (SB : forall l s, In s (map (N.setbit 0) l) -> exists b, N.testbit s b = true).
  { intros l s Hs. apply in_map_iff in Hs as (b & <- & _). exists b. rewrite N.setbit_eqb, N.eqb_refl. auto. }
  assert (X : exists w, In [] (row_rest row w)).
  { apply L. unfold atom_rows in Hr. destruct a as [|c b ad|cp|b].
    - eapply CL; [apply dot_canon|apply empty_wf|exact Hr].
    - destruct HA. eapply CL; eauto.
    - apply filter_In in Hr as ([<-|[]] & _). apply SB.
    - apply filter_In in Hr as ([<-|[]] & _). apply (SB [b]). }
  destruct X as (w & Hw). exists w. apply row_atom_spec; auto. unfold row_atom, atom_rests. apply in_flat_map. eauto.
Qed.

(** * The builder on leaves *)
Definition leaf_ends (bt : nfa -> res (nfa * frag)) : Prop := forall g, sym g -> 0 < length g ->
  match bt g with Ok (g', f) => f_skip f = None /\ forall v p, In (v, p) (f_out f) -> p = length (outs g' v) | _ => True end.

Lemma rows_ends rows : rows <> [] -> Forall (fun r => r <> [] /\ Forall set_ok (map bs_num r)) rows ->
  leaf_ends (fun g => add_rows g (mkF [] [] None) rows).
Proof.
  intros Hne H g S Z.
  assert (R0 : rinv g (length g) (mkF [] [] None) []).
  { split; [|split; [reflexivity|split; [simpl; easy|split; [constructor|intros X; exfalso; apply X; reflexivity]]]]. constructor; simpl; auto; try (intros; lia); try easy; [|constructor].
    intros v u _ Hu. eapply sym_bounded; eauto. }
  destruct (add_rows_spec (length g) rows g _ _ R0 H) as (g' & f & -> & K & (CI & SK & _)). split; auto.
  intros v p Hv. pose proof (exit_of_in _ _ _ (ci_nodup _ _ _ _ CI) Hv) as Ex. apply (ci_out _ _ _ _ CI) in Hv as (Hr & ->).
  destruct (ci_chain _ _ _ _ CI v Hr) as (row & C). inversion C as [? ? _ O|? ? ? ? Ex']; subst; [rewrite O; auto|congruence].
Qed.

Lemma addEdge_spec g h t : h < length g -> t < length g -> outs g h = [] ->
  exists g', addEdge g h t = Ok g' /\ length g' = length g /\ forall v, outs g' v = if v =? h then [t] else outs g v.
Proof.
  intros Hh Ht O. destruct (insertEdge_spec g h t (length (outs g h)) Hh Ht (le_n _)) as (g' & E & L & _ & O' & _). exists g'. split.
  - unfold addEdge, get. unfold outs in E. destruct (nth_error g h) eqn:En; auto. apply nth_error_None in En. lia.
  - split; auto. intros v. rewrite O', O. destruct (v =? h); auto.
Qed.

Lemma lit_chain_end : forall bs g prev g' last, lit_chain g prev bs = Ok (g', last) -> prev < length g -> outs g prev = [] -> outs g' last = [].
Proof.
  induction bs as [|b bs IH]; intros g prev g' last; cbn [lit_chain]; [intros [= <- <-]; auto|].
  intros H Hp O. destruct (addVertex_spec g (TByte b)) as (L & _ & _ & Oa & _).
  destruct (addEdge_spec (addVertex g (TByte b)) prev (length g)) as (g1 & E & L1 & O1); [lia|lia|rewrite Oa; auto|]. rewrite E in H. cbn [bind] in H.
  apply IH in H; auto; [lia|]. rewrite O1. destruct (Nat.eqb_spec (length g) prev); [lia|]. rewrite Oa. apply outs_none. auto.
Qed.

Lemma literal_ends bs : leaf_ends (fun g => literal g bs).
Proof.
  intros g S Z. destruct bs as [|b bs]; cbn [literal]; auto.
  destruct (lit_chain (addVertex g (TByte b)) (length g) bs) as [[g' last]| | |] eqn:E; cbn [bind]; auto.
  split; auto. cbn [f_out]. intros v p [[= <- <-]|[]]. destruct (addVertex_spec g (TByte b)) as (L & _ & _ & O & _).
  rewrite (lit_chain_end _ _ _ _ _ E); auto; [lia|]. rewrite O. apply outs_none; auto.
Qed.

Lemma full_ends g t : outs (addVertex g t) (length g) = [].
Proof. destruct (addVertex_spec g t) as (_ & _ & _ & O & _). rewrite O. apply outs_none; auto. Qed.

Lemma row_good_sets rows : Forall row_good rows -> Forall (fun r => r <> [] /\ Forall set_ok (map bs_num r)) rows.
Proof.
  intros F. eapply Forall_impl; [|exact F]. intros r (H1 & H2 & H3). split; auto. apply Forall_map. rewrite Forall_forall in *.
  intros s Hs. apply num_set_ok; auto.
Qed.

Lemma builds_ext bt bt' F F' thr (thr' : Prop) : builds bt F thr -> (forall g, bt g = bt' g) -> (forall w, F w = F' w) -> (thr <-> thr') -> builds bt' F' thr'.
Proof.
  intros H E EF ET g S Z. specialize (H g S Z). rewrite <- E. destruct (bt g) as [[g' f]| | |]; try tauto. destruct H as (H1 & H2 & H3).
  split; [tauto|]. split; auto. intros w. rewrite <- EF. auto.
Qed.
Lemma leaf_ends_ext bt bt' : leaf_ends bt -> (forall g, bt g = bt' g) -> leaf_ends bt'.
Proof. intros H E g S Z. specialize (H g S Z). rewrite <- E. auto. Qed.

Lemma charClass_spec c b ad : canon 1114112 c -> bs_wf b ->
  let rows := filter nonnil (rows_or_none (class_rows c b ad)) in
  builds (fun g => charClass enc_of g c b ad) (fun w => flat_map (fun row => row_rest row w) rows) (rows = []) /\
  leaf_ends (fun g => charClass enc_of g c b ad).
Proof.
  intros HC HB rows. subst rows. pose proof (class_rows_spec c b ad HC HB) as H. unfold class_rows in *. unfold charClass. cbn [enc_of e_valid e_write_set].
  destruct (rs_and 1114112 c (validCodePoints e)) as [u| | |]; cbn [bind] in *; try easy.
  - destruct (negb (rs_any u)).
    + destruct (negb ad || negb (bs_any b)) eqn:Ec; cbn [rows_or_none filter].
      * split; [intros g S Z; auto|intros g S Z; auto].
      * destruct H as (_ & G & _). apply orb_false_elim in Ec as [_ Ec]. apply negb_false_iff in Ec.
        pose proof (num_set_ok b HB Ec) as SO. pose proof (getSmallest_trans_ok _ SO) as TO. pose proof (fun x => getSmallest_bits (bs_num b) x SO) as GB.
        revert TO GB. generalize (getSmallest (bs_num b)). intros t TO GB.
        split; intros g S Z.
        -- destruct (full_spec g t S TO) as (P & _ & WF). split; [discriminate|]. split; auto. intros w. rewrite WF. cbn [map filter nonnil flat_map]. rewrite app_nil_r.
           destruct w as [|x w]; cbn [row_rest]; [|rewrite GB]; apply oeq_refl.
        -- split; auto. cbn [full f_out]. intros v p [[= <- <-]|[]]. rewrite full_ends. auto.
    + destruct (ws u) as [rows| | |]; cbn [bind] in *; try easy; try solve [cbn [rows_or_none filter]; split; intros g S Z; auto].
      destruct (breakout rows b ad) as [rows'| | |]; cbn [bind rows_or_none] in *; try easy; try solve [cbn [filter]; split; intros g S Z; auto].
      destruct H as (NE & G & _). rewrite good_rows_filter by auto. pose proof (row_good_sets rows' G) as SG. split; [|apply rows_ends; auto].
      eapply builds_ext; [apply (rows_spec rows' NE SG)|auto| |].
      * intros w. rewrite !flat_map_concat_map, map_map. auto.
      * rewrite rows_none_iff. split; [tauto|congruence].
Qed.

Lemma atom_builds a : atom_ok a -> builds (fun g => build_atom enc_of g a) (atom_rests a) (atom_none a) /\ leaf_ends (fun g => build_atom enc_of g a).
Proof.
  intros HA. destruct a as [|c b ad|cp|b]; cbn [build_atom].
  - apply charClass_spec; [apply dot_canon|apply empty_wf].
  - destruct HA. apply charClass_spec; auto.
  - split; [|apply literal_ends]. cbn [enc_of e_write]. unfold atom_rests, atom_none, atom_rows. destruct (enc_write e cp) as [|x l] eqn:Ew.
    + intros g S Z. cbn [literal]. reflexivity.
    + eapply builds_ext; [apply (literal_spec (x :: l)); rewrite <- Ew; apply enc_bytes; exact OK|auto| |].
      * intros w. cbn [map filter nonnil flat_map]. rewrite app_nil_r. auto.
      * cbn [map filter nonnil]. split; congruence.
  - split.
    + eapply builds_ext; [apply rawByte_spec; exact HA|auto| |].
      * intros w. unfold atom_rests, atom_rows. cbn [filter nonnil flat_map]. rewrite app_nil_r. auto.
      * unfold atom_none, atom_rows. cbn [filter nonnil]. split; [tauto|discriminate].
    + intros g S Z. unfold rawByte. split; auto. cbn [full f_out]. intros v p [[= <- <-]|[]]. rewrite full_ends. auto.
Qed.
End Encoder.

(** * The encoders EncoderFactory hands out *)
Section Factory.
Variable sort : nat -> nat -> list (list bset) -> list (list bset).
Variable sort_len : list (list bset) -> list (list bset).

(** write(uset, vo) of a CachingEncoder: a preset answer or what the encoder itself says; see
    [factory_rows_serve]. *)
Definition factory_rows (e : encoder) (u : rset) : res (list (list bset)) :=
  cache <- factory_cache e ;;
  match cache_find cache u with Some v => Ok v | None => enc_write_set sort sort_len e u end.

(** What the cache has seen before does not change the answers. *)
Lemma factory_rows_serve e us cache : factory_cache e = Ok cache -> serve sort sort_len e cache us = mapM (factory_rows e) us.
Proof.
  intros Hc.
  assert (G : forall us c, (forall u v, cache_find c u = Some v -> factory_rows e u = Ok v) -> (forall u, cache_find c u = None -> cache_find cache u = None) ->
    serve sort sort_len e c us = mapM (factory_rows e) us).
  { clear us. induction us as [|u us IH]; intros c H1 H2; auto. cbn [serve mapM]. unfold cached_write. destruct (cache_find c u) as [v|] eqn:Ef.
    - rewrite (H1 u v Ef). cbn [bind]. rewrite IH; auto.
    - assert (E : factory_rows e u = enc_write_set sort sort_len e u) by (unfold factory_rows; rewrite Hc; cbn [bind]; rewrite (H2 u Ef); auto).
      rewrite E. destruct (enc_write_set sort sort_len e u) as [v| | |] eqn:Ew; cbn [bind]; auto. rewrite IH; auto.
      + intros u' v'. cbn [cache_find]. destruct (list_eq_dec N.eq_dec u' u) as [->|]; auto. congruence.
      + intros u'. cbn [cache_find]. destruct (list_eq_dec N.eq_dec u' u) as [->|]; [discriminate|auto]. }
  apply G; auto. intros u v H. unfold factory_rows. rewrite Hc. cbn [bind]. rewrite H. auto.
Qed.

Hypothesis sort_perm : forall a b l, Permutation l (sort a b l).
Hypothesis sort_len_perm : forall l, Permutation l (sort_len l).
Hypothesis sort_len_sorted : forall l, StronglySorted (fun a b => length a <= length b) (sort_len l).

Lemma preset_good c : exists cache, initial_cache c = Ok cache /\ forall u vo, In (u, vo) cache ->
  Forall (fun r => 1 <= length r <= maxByteLength (EBase c)) vo /\ Forall (Forall (fun s => bs_any s = true)) vo /\ ones_first vo.
Proof.
  set (chk := fun vo => forallb (fun r => (1 <=? length r) && (length r <=? maxByteLength (EBase c)) && forallb bs_any r) vo && forallb (fun r : list bset => 2 <=? length r) (tl vo)).
  assert (K : match initial_cache c with Ok cache => forallb (fun x => chk (snd x)) cache = true | _ => False end).
  { subst chk. destruct c as [| |[]|[]]; vm_compute; reflexivity. }
  destruct (initial_cache c) as [cache| | |]; try easy. exists cache. split; auto. intros u vo Hi. rewrite forallb_forall in K. apply K in Hi. cbn [snd] in Hi.
  unfold chk in Hi. apply andb_true_iff in Hi as (H1 & H2). rewrite forallb_forall in H1. split; [|split].
  - apply Forall_forall. intros r Hr. apply H1 in Hr. apply andb_true_iff in Hr as (Hr & _). apply andb_true_iff in Hr as (A & B). apply Nat.leb_le in A, B. lia.
  - apply Forall_forall. intros r Hr. apply H1 in Hr. apply andb_true_iff in Hr as (_ & Hr). apply Forall_forall. rewrite forallb_forall in Hr. auto.
  - unfold ones_first. apply Forall_forall. rewrite forallb_forall in H2. intros r Hr. apply H2 in Hr. apply Nat.leb_le in Hr. auto.
Qed.

Lemma cache_find_in : forall c u vo, cache_find c u = Some vo -> In (u, vo) c.
Proof.
  induction c as [|[u1 v1] c IHc]; cbn [cache_find]; [discriminate|]. intros u vo. destruct (list_eq_dec N.eq_dec u u1); [|right; auto].
  intros [= <-]. subst. left; auto.
Qed.

Lemma factory_writes e : enc_ok e -> writes_sets e (factory_rows e).
Proof.
  intros OK u C V X. assert (FR : exists cache, factory_cache e = Ok cache /\ forall vo, cache_find cache u = Some vo ->
     Forall (vgood (maxByteLength e)) vo /\ ones_first vo /\ forall w, EncProofs.lang vo w <-> exists x, par u x = true /\ enc_write e (Z.of_N x) = w).
  { destruct e as [c|e|k e|r e]; cbn [factory_cache]; try solve [exists []; split; [auto|discriminate]].
    destruct (initial_cache_spec c) as (cache & E & H). destruct (preset_good c) as (cache' & E' & H'). rewrite E in E'. injection E' as <-.
    exists cache. split; auto. intros vo Hf. apply cache_find_in in Hf. destruct (H u vo Hf) as (_ & W & L). destruct (H' u vo Hf) as (A & B & O1).
    split; [|split; auto]. rewrite Forall_forall in *. intros r Hr. specialize (W r Hr). split; auto. split; [apply A; auto|]. apply vmatch_any; auto. }
  destruct FR as (cache & Ec & HF). unfold factory_rows. rewrite Ec. cbn [bind]. destruct (cache_find cache u) as [vo|].
  - exists vo. split; auto. 
  - destruct (write_set_spec sort sort_len sort_perm sort_len_perm e u OK C V) as (vo & Ev & G & W & L). exists vo. split; auto. split; auto. split; auto.
    eapply write_set_ones; eauto.
Qed.
End Factory.
