From Verif Require Import Base UtfModel UtfProofs RangeSetModel RangeSetProofs ByteSetModel ByteSetProofs EncModel.
From Coq Require Import Sorting.Sorted Sorting.Permutation.
Open Scope N_scope.

Ltac sp := repeat match goal with |- _ /\ _ => split | |- _ <-> _ => split | |- forall w : list N, _ <-> _ => intros w end.

Definition bytes (l : list N) : Prop := Forall (fun b => b < 256) l.

(** A row of byte sets matches a string of bytes. *)
Definition vmatch (v : list bset) (w : list N) : Prop := Forall2 (fun s b => b < 256 /\ tb s b = true) v w.
Definition lang (va : list (list bset)) (w : list N) : Prop := exists v, In v va /\ vmatch v w.

(** Rows that can match something. *)
Definition vgood (m : nat) (v : list bset) : Prop :=
  Forall bs_wf v /\ (1 <= length v <= m)%nat /\ exists w, vmatch v w.

Lemma lang_cons v va w : lang (v :: va) w <-> vmatch v w \/ lang va w.
Proof. unfold lang. simpl. split; [intros (x & [->|H] & M); eauto|intros [H|(x & H & M)]; eauto]. Qed.
Lemma lang_nil w : lang [] w <-> False.
Proof. split; [intros (x & [] & _)|tauto]. Qed.
Lemma lang_app a b w : lang (a ++ b) w <-> lang a w \/ lang b w.
Proof.
  unfold lang. split.
  - intros (x & H & M). apply in_app_or in H as [H|H]; eauto.
  - intros [(x & H & M)|(x & H & M)]; exists x; split; auto; apply in_or_app; auto.
Qed.
Lemma lang_perm a b w : Permutation a b -> (lang a w <-> lang b w).
Proof.
  intros P. unfold lang. split; intros (x & H & M); exists x; split; auto.
  - eapply Permutation_in; eauto. - eapply Permutation_in; [apply Permutation_sym|]; eauto.
Qed.
Lemma lang_rev a w : lang (rev a) w <-> lang a w.
Proof. apply lang_perm. apply Permutation_sym, Permutation_rev. Qed.

Lemma vmatch_length v w : vmatch v w -> length v = length w.
Proof. induction 1; simpl; congruence. Qed.

Lemma vmatch_split A s B w : vmatch (A ++ s :: B) w <->
  exists wa b wb, w = wa ++ b :: wb /\ vmatch A wa /\ (b < 256 /\ tb s b = true) /\ vmatch B wb.
Proof.
  unfold vmatch. split.
  - intros H. apply Forall2_app_inv_l in H as (wa & w2 & H1 & H2 & ->). inversion H2; subst. eauto 8.
  - intros (wa & b & wb & -> & H1 & H2 & H3). apply Forall2_app; auto.
Qed.

Lemma empty_wf : bs_wf bs_empty.
Proof. split; [reflexivity|]. apply Forall_forall. intros y Hy. apply repeat_spec in Hy. subst. reflexivity. Qed.
Lemma empty_tb x : x < 256 -> tb bs_empty x = false.
Proof. intros. unfold tb, bs_empty. rewrite nth_repeat by lia. apply N.bits_0. Qed.

Lemma single_spec b : b < 256 -> exists s, single b = Ok s /\ bs_wf s /\ forall x, x < 256 -> tb s x = (x =? b).
Proof.
  intros H. destruct (set1_spec bs_empty b true empty_wf H) as (s & E & W & T). exists s. split; auto. split; auto.
  intros x Hx. rewrite T by auto. rewrite empty_tb by auto. destruct (x =? b); auto.
Qed.

Lemma mapM_app {A B} (f : A -> res B) l1 l2 r1 r2 : mapM f l1 = Ok r1 -> mapM f l2 = Ok r2 -> mapM f (l1 ++ l2) = Ok (r1 ++ r2).
Proof.
  revert r1. induction l1 as [|a l IH]; simpl; intros r1 H1 H2; [injection H1 as <-; auto|].
  apply bind_ok in H1 as (b & E & H1). apply bind_ok in H1 as (r & E2 & H1). injection H1 as <-.
  rewrite E. cbn [bind]. rewrite (IH r) by auto. reflexivity.
Qed.

Lemma mapM_single w : bytes w -> exists v, mapM single w = Ok v /\ Forall bs_wf v /\ length v = length w /\
  forall w', vmatch v w' <-> w' = w.
Proof.
  induction 1 as [|b w Hb Hw (v & E & W & L & M)].
  - exists []. split; [reflexivity|]. split; [constructor|]. split; [reflexivity|].
    intros w'. unfold vmatch. split; [intros H; inversion H; auto|intros ->; constructor].
  - destruct (single_spec b Hb) as (s & Es & Ws & Ts). exists (s :: v). cbn [mapM]. rewrite Es. cbn [bind]. rewrite E. cbn [bind].
    split; [reflexivity|]. split; [constructor; auto|]. split; [simpl; congruence|].
    intros w'. unfold vmatch. split.
    + intros H. inversion H as [|? b' ? w2 [Hb' Ht] H2]; subst. rewrite Ts in Ht by auto. apply N.eqb_eq in Ht. subst.
      f_equal. apply M. auto.
    + intros ->. constructor; [split; auto; rewrite Ts by auto; apply N.eqb_refl|]. apply M. auto.
Qed.

(** * Collecting, the general version *)
Section Generic.
Variable wr : Z -> list N.
Variable m : nat.
Hypothesis wr_bytes : forall cp, bytes (wr cp).
Hypothesis wr_len : forall cp, (length (wr cp) <= m)%nat.

Definition prev_ok (va : list (list bset)) (prev : list N) : Prop :=
  prev = [] \/
  exists p b vs s r, prev = p ++ [b] /\ va = (vs ++ [s]) :: r /\ Forall bs_wf vs /\ bs_wf s /\
    length vs = length p /\ (forall w, vmatch vs w <-> w = p).

Lemma collect_one_spec va prev cp (P : N -> Prop) :
  Forall (vgood m) va -> prev_ok va prev -> (forall w, lang va w <-> exists x, P x /\ wr (Z.of_N x) = w /\ w <> []) ->
  exists va' prev', collect_one wr va prev cp = Ok (va', prev') /\ Forall (vgood m) va' /\ prev_ok va' prev' /\
    (forall w, lang va' w <-> exists x, (P x \/ x = cp) /\ wr (Z.of_N x) = w /\ w <> []).
Proof.
  intros G PO L. unfold collect_one. pose proof (wr_bytes (Z.of_N cp)) as Hb. pose proof (wr_len (Z.of_N cp)) as Hl.
  remember (wr (Z.of_N cp)) as cur eqn:Ecur. destruct cur as [|c0 ct].
  { exists va, prev. split; auto. split; auto. split; auto. intros w. rewrite L. split.
    - intros (x & Hx & E & N). exists x. tauto.
    - intros (x & [Hx| ->] & E & N); [exists x; auto|]. congruence. }
  destruct (exists_last (l := c0 :: ct) ltac:(discriminate)) as (p & b & Ep). rewrite Ep in *.
  assert (Hbb : bytes p /\ b < 256). { unfold bytes in *. apply Forall_app in Hb as [H1 H2]. inversion H2; auto. }
  destruct ((length (p ++ [b]) =? length prev)%nat && same_prefix (p ++ [b]) prev) eqn:E.
  - apply andb_prop in E as [E1 E2]. apply Nat.eqb_eq in E1.
    unfold same_prefix in E2. destruct (list_eq_dec N.eq_dec _ _) as [Ef|]; [|discriminate]. clear E2.
    destruct PO as [-> |(p' & b' & vs & s & r & -> & -> & Wv & Ws & Lv & Mv)]; [rewrite app_length in E1; simpl in E1; lia|].
    rewrite !app_length in E1. simpl in E1. rewrite app_length in Ef. simpl in Ef.
    rewrite (firstn_app (length p + 1 - 1) p) in Ef. replace (length p + 1 - 1)%nat with (length p) in Ef by lia.
    rewrite firstn_all, Nat.sub_diag, firstn_O, app_nil_r in Ef.
    rewrite firstn_app in Ef. replace (length p - length p')%nat with O in Ef by lia. rewrite firstn_O, app_nil_r in Ef.
    replace (length p) with (length p') in Ef by lia. rewrite firstn_all in Ef. subst p'.
    unfold set_last. rewrite rev_app_distr. cbn [rev app].
    replace (last (p ++ [b]) 0) with b by (symmetry; apply last_last).
    destruct (set1_spec s b true Ws ltac:(tauto)) as (s' & Es & Ws' & Ts). rewrite Es. cbn [bind]. rewrite rev_involutive.
    assert (MM : forall w, vmatch (vs ++ [s']) w <-> vmatch (vs ++ [s]) w \/ w = p ++ [b]).
    { intros w. rewrite !vmatch_split. split.
      - intros (wa & b1 & wb & -> & Ha & (Hb1 & Ht) & Hb2). inversion Hb2; subst wb. apply Mv in Ha as ->.
        rewrite Ts in Ht by auto. destruct (N.eqb_spec b1 b) as [->|]; auto.
        left. exists p, b1, []. sp; auto. apply Mv; auto.
      - intros [(wa & b1 & wb & -> & Ha & (Hb1 & Ht) & Hb2)| ->].
        + exists wa, b1, wb. sp; auto. rewrite Ts by auto. rewrite Ht. destruct (b1 =? b); auto.
        + exists p, b, []. sp; auto; try tauto; [apply Mv; auto|rewrite Ts by tauto; rewrite N.eqb_refl; auto|constructor]. }
    eexists _, _. split; [reflexivity|]. split; [|split].
    + inversion G as [|? ? (G1 & G2 & w0 & G3) Gr]; subst. constructor; auto. split; [|split].
      * apply Forall_app in G1 as [G1 _]. apply Forall_app; split; auto.
      * rewrite app_length in *; simpl in *; lia.
      * exists w0. apply MM. auto.
    + right. exists p, b', vs, s', r. sp; auto; apply Mv; auto.
    + intros w. rewrite lang_cons, MM. specialize (L w). rewrite lang_cons in L. split.
      * intros [[H| ->]|H]; [| |].
        -- destruct (proj1 L (or_introl H)) as (x & ? & ?). exists x; tauto.
        -- exists cp. rewrite <- Ecur. sp; auto. destruct p; discriminate.
        -- destruct (proj1 L (or_intror H)) as (x & ? & ?). exists x; tauto.
      * intros (x & [Hx| ->] & E & Nw).
        -- destruct (proj2 L) as [H|H]; [exists x; auto|auto|auto].
        -- rewrite <- Ecur in E. subst w. auto.
  - destruct (mapM_single (p ++ [b]) Hb) as (v & Ev & Wv & Lv & Mv). rewrite Ev. cbn [bind].
    eexists _, _. split; [reflexivity|]. split; [|split].
    + constructor; auto. split; auto. rewrite Lv. rewrite app_length in *. simpl in *. split; [lia|]. exists (p ++ [b]). apply Mv. auto.
    + right. destruct (mapM_single p ltac:(tauto)) as (vp & Evp & Wvp & Lvp & Mvp).
      destruct (single_spec b ltac:(tauto)) as (s & Es & Ws & Ts).
      assert (Ea : mapM single (p ++ [b]) = Ok (vp ++ [s])) by (apply mapM_app; auto; simpl; rewrite Es; reflexivity).
      rewrite Ea in Ev. injection Ev as <-. exists p, b, vp, s, va. sp; auto; apply Mvp; auto.
    + intros w. rewrite lang_cons, Mv, L. split.
      * intros [-> |(x & ? & ?)]; [exists cp; rewrite <- Ecur; sp; auto; destruct p; discriminate|exists x; tauto].
      * intros (x & [Hx| ->] & E2 & Nw); [right; exists x; auto|left; congruence].
Qed.

Lemma collect_range_spec n : forall va prev cp (P : N -> Prop),
  Forall (vgood m) va -> prev_ok va prev -> (forall w, lang va w <-> exists x, P x /\ wr (Z.of_N x) = w /\ w <> []) ->
  exists va' prev', collect_range wr n va prev cp = Ok (va', prev') /\ Forall (vgood m) va' /\ prev_ok va' prev' /\
    (forall w, lang va' w <-> exists x, (P x \/ cp <= x < cp + N.of_nat n) /\ wr (Z.of_N x) = w /\ w <> []).
Proof.
  induction n as [|n IH]; intros va prev cp P G PO L; cbn [collect_range].
  - exists va, prev. sp; auto.
    + intros H. apply L in H as (x & ? & ?). exists x; tauto.
    + intros (x & [H|H] & ?); [|lia]. apply L. exists x; tauto.
  - destruct (collect_one_spec va prev cp P G PO L) as (va1 & p1 & E1 & G1 & PO1 & L1). rewrite E1. cbn [bind].
    destruct (IH va1 p1 (cp + 1) _ G1 PO1 L1) as (va2 & p2 & E2 & G2 & PO2 & L2). exists va2, p2. sp; auto.
    + intros H. apply L2 in H as (x & Hx & ?). exists x. split; auto. destruct Hx as [[?| ->]|?]; [tauto| |]; right; lia.
    + intros (x & Hx & ?). apply L2. exists x. split; auto. destruct Hx as [?|?]; [tauto|].
      destruct (N.eq_dec x cp); [tauto|]. right. lia.
Qed.

Lemma collect_ranges_spec rs : forall va prev (P : N -> Prop), Forall (fun r => fst r <= snd r) rs ->
  Forall (vgood m) va -> prev_ok va prev -> (forall w, lang va w <-> exists x, P x /\ wr (Z.of_N x) = w /\ w <> []) ->
  exists va', collect_ranges wr rs va prev = Ok va' /\ Forall (vgood m) va' /\
    (forall w, lang va' w <-> exists x, (P x \/ exists a b, In (a, b) rs /\ a <= x < b) /\ wr (Z.of_N x) = w /\ w <> []).
Proof.
  induction rs as [|[l h] rs IH]; intros va prev P O G PO L; cbn [collect_ranges].
  - exists va. sp; auto.
    + intros H. apply L in H as (x & ? & ?). exists x; tauto.
    + intros (x & [H|(a & b & [] & _)] & ?). apply L. exists x; tauto.
  - inversion O as [|? ? O1 O2]; subst. cbn [fst snd] in O1.
    destruct (collect_range_spec (N.to_nat (h - l)) va prev l P G PO L) as (va1 & p1 & E1 & G1 & PO1 & L1). rewrite E1. cbn [bind].
    destruct (IH va1 p1 _ O2 G1 PO1 L1) as (va2 & E2 & G2 & L2). exists va2. split; auto. split; auto.
    intros w. rewrite L2. split; intros (x & Hx & ?); exists x; split; auto.
    + destruct Hx as [[?|?]|(a & b & ? & ?)]; [tauto| |]; right; [exists l, h; simpl; split; auto; lia|exists a, b; simpl; auto].
    + destruct Hx as [?|(a & b & [[= -> ->]|Hi] & ?)]; [tauto| |]; [left; right; lia|right; eauto].
Qed.
End Generic.

(** * Collapsing *)
Lemma equal_except_split n a b : length a = length b -> (n < length a)%nat -> equal_except_at n a b = true ->
  exists A s1 s2 B, a = A ++ s1 :: B /\ b = A ++ s2 :: B /\ length A = (length a - n - 1)%nat.
Proof.
  intros L Hn H. unfold equal_except_at in H. apply andb_prop in H as [H1 H2].
  set (k := (length a - n - 1)%nat) in *.
  assert (E1 : firstn k a = firstn k b).
  { apply orb_prop in H1 as [H1|H1].
    - apply Nat.leb_le in H1. replace k with O by lia. reflexivity.
    - unfold bsets_eqb in H1. destruct (list_eq_dec _ _ _); [auto|discriminate]. }
  assert (E2 : skipn (S k) a = skipn (S k) b).
  { replace (S k) with (length a - n)%nat by lia. apply orb_prop in H2 as [H2|H2].
    - apply Nat.eqb_eq in H2. subst n. rewrite !skipn_all2; auto; lia.
    - unfold bsets_eqb in H2. destruct (list_eq_dec _ _ _) as [E|]; [|discriminate]. rewrite <- L in E. auto. }
  destruct (nth_error a k) as [s1|] eqn:N1; [|apply nth_error_None in N1; lia].
  destruct (nth_error b k) as [s2|] eqn:N2; [|apply nth_error_None in N2; lia].
  exists (firstn k a), s1, s2, (skipn (S k) a). sp.
  - rewrite <- (skipn_cons a k s1 N1). symmetry. apply firstn_skipn.
  - rewrite E1, E2. rewrite <- (skipn_cons b k s2 N2). symmetry. apply firstn_skipn.
  - apply firstn_length_le. lia.
Qed.

Lemma get_mid {A} (X : list A) s Y : get (X ++ s :: Y) (length X) = Ok s.
Proof. unfold get. rewrite nth_error_app2, Nat.sub_diag by lia. reflexivity. Qed.
Lemma upd_mid {A} (X : list A) s s' Y : upd (X ++ s :: Y) (length X) s' = X ++ s' :: Y.
Proof. induction X; simpl; congruence. Qed.
Lemma set_at_mid {A} (X : list A) s s' Y : set_at (X ++ s :: Y) (length X) s' = Ok (X ++ s' :: Y).
Proof.
  unfold set_at. rewrite app_length. simpl. destruct (Nat.ltb_spec (length X) (length X + S (length Y))); [|lia].
  rewrite upd_mid. reflexivity.
Qed.

Lemma or_spec_bs s t : bs_wf s -> bs_wf t -> bs_wf (bs_or s t) /\ forall x, x < 256 -> tb (bs_or s t) x = tb s x || tb t x.
Proof. intros. apply (map2_spec N.lor orb); auto. apply N.lor_spec. Qed.

Lemma absorb_spec m n elen : (n < elen)%nat -> forall l e, vgood m e -> length e = elen -> Forall (fun v => vgood m v /\ length v = elen) l ->
  exists e' r, absorb n (elen - n - 1) e l = Ok (e', r) /\ vgood m e' /\ length e' = elen /\
    Forall (fun v => vgood m v /\ length v = elen) r /\ (length r <= length l)%nat /\
    forall w, (vmatch e' w \/ lang r w) <-> (vmatch e w \/ lang l w).
Proof.
  intros Hn. induction l as [|v l IH]; intros e Ge Le Gl; cbn [absorb].
  - exists e, []. sp; auto; tauto.
  - apply Forall_cons_iff in Gl as [[Gv Lv] Gl'].
    destruct (equal_except_at n e v) eqn:E.
    + destruct (equal_except_split n e v) as (A & s1 & s2 & B & -> & -> & LA); [congruence|lia|auto|].
      replace (elen - n - 1)%nat with (length A) by lia. rewrite !get_mid. cbn [bind]. rewrite set_at_mid. cbn [bind].
      destruct Ge as (W1 & L1 & w1 & M1). destruct Gv as (W2 & L2 & w2 & M2).
      apply Forall_app in W1 as [WA W1]. apply Forall_cons_iff in W1 as [Ws1 WB].
      apply Forall_app in W2 as [_ W2]. apply Forall_cons_iff in W2 as [Ws2 _].
      destruct (or_spec_bs s1 s2 Ws1 Ws2) as [Wo To].
      assert (MM : forall w, vmatch (A ++ bs_or s1 s2 :: B) w <-> vmatch (A ++ s1 :: B) w \/ vmatch (A ++ s2 :: B) w).
      { intros w. rewrite !vmatch_split. split.
        - intros (wa & b & wb & -> & Ha & (Hb & Ht) & HB). rewrite To in Ht by auto. apply orb_prop in Ht as [Ht|Ht];
            [left|right]; exists wa, b, wb; auto.
        - intros [(wa & b & wb & -> & Ha & (Hb & Ht) & HB)|(wa & b & wb & -> & Ha & (Hb & Ht) & HB)];
            exists wa, b, wb; sp; auto; rewrite To, Ht by auto; auto using orb_true_r. }
      destruct (IH (A ++ bs_or s1 s2 :: B)) as (e' & r & E' & G' & L' & Gr & Lr & Mr); auto.
      { split; [apply Forall_app; split; auto|]. rewrite app_length in *. simpl in *. split; [lia|]. exists w1. apply MM. auto. }
      { rewrite app_length in *. simpl in *. lia. }
      replace (length A) with (elen - n - 1)%nat by lia. exists e', r. split; [auto|]. sp; auto; try apply G'; try (simpl; lia).
      * intros H. apply Mr in H. rewrite MM in H. rewrite lang_cons. tauto.
      * intros H. apply Mr. rewrite MM. rewrite lang_cons in H. tauto.
    + exists e, (v :: l). sp; auto; try apply Ge; tauto.
Qed.

Lemma collapse_group_spec m n elen : (n < elen)%nat -> forall fuel l, (length l <= fuel)%nat ->
  Forall (fun v => vgood m v /\ length v = elen) l ->
  exists out, collapse_group fuel n (elen - n - 1) l = Ok out /\ Forall (fun v => vgood m v /\ length v = elen) out /\
    forall w, lang out w <-> lang l w.
Proof.
  intros Hn. induction fuel as [|fuel IH]; intros l Hf G.
  - destruct l; [|simpl in Hf; lia]. exists []. simpl. sp; auto.
  - destruct l as [|e t]; cbn [collapse_group]; [exists []; sp; auto|].
    apply Forall_cons_iff in G as [[Ge Le] Gt].
    destruct (absorb_spec m n elen Hn t e Ge Le Gt) as (e' & r & E & Ge' & Le' & Gr & Lr & M). rewrite E. cbn [bind].
    destruct (IH r) as (out & E2 & G2 & M2); auto; [simpl in Hf; lia|]. rewrite E2. cbn [bind].
    exists (e' :: out). sp; auto.
    + intros H. rewrite lang_cons, M2, M, <- lang_cons in H. auto.
    + intros H. rewrite lang_cons, M2, M, <- lang_cons. auto.
Qed.

Lemma span_len_spec len l a b : span_len len l = (a, b) ->
  l = a ++ b /\ Forall (fun v => length v = len) a /\
  (match l with [] => True | v :: _ => length v = len -> (length b < length l)%nat end).
Proof.
  revert a b. induction l as [|v l IH]; simpl; intros a b H; [injection H as <- <-; auto|].
  destruct (Nat.eqb_spec (length v) len).
  - destruct (span_len len l) as [a' b'] eqn:E. injection H as <- <-. destruct (IH _ _ eq_refl) as (-> & F & _).
    sp; auto. intros _. rewrite app_length. lia.
  - injection H as <- <-. sp; auto. congruence.
Qed.

Section SortingProofs.
Variable sort : nat -> nat -> list (list bset) -> list (list bset).
Hypothesis sort_perm : forall a b l, Permutation l (sort a b l).

Lemma collapse_round_spec m n : forall fuel va, (length va <= fuel)%nat ->
  Forall (fun v => vgood m v /\ (n < length v)%nat) va ->
  exists vo vb, collapse_round sort fuel n va = Ok (vo, vb) /\ Forall (vgood m) vo /\
    Forall (fun v => vgood m v /\ (S n < length v)%nat) vb /\
    forall w, lang va w <-> lang vo w \/ lang vb w.
Proof.
  induction fuel as [|fuel IH]; intros va Hf G.
  - destruct va; [|simpl in Hf; lia]. exists [], []. simpl. sp; auto; rewrite lang_nil; tauto.
  - destruct va as [|v va]; [exists [], []; simpl; sp; auto; rewrite lang_nil; tauto|].
    cbn [collapse_round]. inversion G as [|? ? [Gv Lv] Gt]; subst.
    destruct (Nat.ltb_spec (length v) (n + 1)); [lia|].
    destruct (span_len (length v) (v :: va)) as [grp rest] eqn:Es.
    destruct (span_len_spec _ _ _ _ Es) as (Ea & Fg & Lr). specialize (Lr eq_refl). rewrite Ea in G. apply Forall_app in G as [Gg Gr].
    set (grp' := if (1 <? length v)%nat then sort (length v) (length v - n - 1) grp else grp).
    assert (P : Permutation grp grp'). { unfold grp'. destruct (1 <? length v)%nat; auto. }
    assert (Gg' : Forall (fun x => vgood m x /\ length x = length v) grp').
    { apply Forall_forall. intros x Hx. apply (Permutation_in _ (Permutation_sym P)) in Hx.
      rewrite Forall_forall in Gg, Fg. split; [apply Gg; auto|apply Fg; auto]. }
    destruct (collapse_group_spec m n (length v) ltac:(lia) (length grp') grp' ltac:(lia) Gg') as (out & Eo & Go & Mo).
    rewrite Eo. cbn [bind].
    destruct (IH rest) as (vo & vb & E2 & G2 & G3 & M2); auto; [cbn [length] in *; lia|]. rewrite E2. cbn [bind].
    assert (ML : forall w, lang (v :: va) w <-> lang out w \/ lang vo w \/ lang vb w).
    { intros w. rewrite Ea, lang_app, M2, Mo. rewrite (lang_perm _ _ w P). tauto. }
    destruct (Nat.eqb_spec n (length v - 1)).
    + eexists _, _. split; [reflexivity|]. split; [apply Forall_app; split; auto; eapply Forall_impl; [|exact Go]; simpl; tauto|]. split; auto.
      intros w. rewrite lang_app, ML. tauto.
    + eexists _, _. split; [reflexivity|]. split; auto. split.
      * apply Forall_app; split; auto. eapply Forall_impl; [|exact Go]. simpl. intros a [Ha Hb]. split; auto. lia.
      * intros w. rewrite lang_app, ML. tauto.
Qed.

Lemma collapse_spec m : forall k n va vo, (m <= n + k)%nat -> Forall (vgood m) vo ->
  Forall (fun v => vgood m v /\ (n < length v)%nat) va ->
  exists out, collapse sort k n va vo = Ok out /\ Forall (vgood m) out /\ forall w, lang out w <-> lang vo w \/ lang va w.
Proof.
  induction k as [|k IH]; intros n va vo Hk Go Ga; cbn [collapse].
  - exists vo. sp; auto. intros [H|(v & Hv & _)]; auto.
    rewrite Forall_forall in Ga. destruct (Ga v Hv) as [(_ & ? & _) ?]. lia.
  - destruct (collapse_round_spec m n (length va) va ltac:(lia) Ga) as (o & b & E & G1 & G2 & M). rewrite E. cbn [bind].
    destruct (IH (S n) b (vo ++ o)) as (out & E2 & G3 & M2); [lia|apply Forall_app; auto|auto|].
    exists out. split; auto. split; auto. intros w. rewrite M2, M, lang_app. tauto.
Qed.
End SortingProofs.
