(** A canonical vector (strictly increasing, even length, at most M) denotes the set of
    the numbers with an odd number of elements at or below them. *)
From Verif Require Import Base RangeSetModel.
From Coq Require Import Sorting.Sorted.
Open Scope N_scope.

Fixpoint cnt (v : rset) (x : N) : nat :=
  match v with [] => O | a :: t => if a <=? x then S (cnt t x) else cnt t x end.

Definition par (v : rset) (x : N) : bool := Nat.odd (cnt v x).

Definition sorted (v : rset) := StronglySorted N.lt v.

Record canon (M : N) (v : rset) : Prop := {
  c_sorted : sorted v;
  c_even : Nat.even (length v) = true;
  c_bound : Forall (fun e => e <= M) v
}.

Lemma cnt_app v w x : cnt (v ++ w) x = (cnt v x + cnt w x)%nat.
Proof. induction v as [|a v IH]; simpl; auto. destruct (a <=? x); simpl; lia. Qed.

Lemma cnt_all v x : Forall (fun e => e <= x) v -> cnt v x = length v.
Proof. induction 1; simpl; auto. destruct (N.leb_spec x0 x); [lia|lia]. Qed.

Lemma cnt_none v x : Forall (fun e => x < e) v -> cnt v x = O.
Proof. induction 1; simpl; auto. destruct (N.leb_spec x0 x); [lia|auto]. Qed.

Lemma sorted_app v w :
  sorted (v ++ w) <->
  sorted v /\ sorted w /\ (forall a b, In a v -> In b w -> a < b).
Proof.
  induction v as [|x v IH]; simpl.
  - split; [intros H; repeat split; auto; [constructor|tauto]|tauto].
  - split.
    + intros H; inversion H as [|? ? H1 H2]; subst.
      apply IH in H1 as (A & B & C). rewrite Forall_app in H2. destruct H2 as [D E].
      repeat split; auto.
      * constructor; auto.
      * intros a b [->|Ha] Hb; auto. rewrite Forall_forall in E; auto.
    + intros (H1 & H2 & H3). inversion H1 as [|? ? A B]; subst. constructor.
      * apply IH; repeat split; auto.
      * rewrite Forall_app; split; auto. rewrite Forall_forall; intros; apply H3; auto.
Qed.

Lemma lower_split v x : sorted v ->
  Forall (fun e => e < x) (firstn (lower_bound v x) v) /\
  Forall (fun e => x <= e) (skipn (lower_bound v x) v) /\ (lower_bound v x <= length v)%nat.
Proof.
  induction 1 as [|a v Hs IH Ha]; simpl; [repeat constructor|].
  destruct (N.ltb_spec a x); simpl.
  - destruct IH as (A & B & C). split; [constructor; auto|split; [auto|lia]].
  - split; [constructor|split; [|lia]]. constructor; auto.
    rewrite Forall_forall in *; intros y Hy; specialize (Ha y Hy); lia.
Qed.

Lemma upper_split v x : sorted v ->
  Forall (fun e => e <= x) (firstn (upper_bound v x) v) /\
  Forall (fun e => x < e) (skipn (upper_bound v x) v) /\ (upper_bound v x <= length v)%nat.
Proof.
  induction 1 as [|a v Hs IH Ha]; simpl; [repeat constructor|].
  destruct (N.leb_spec a x); simpl.
  - destruct IH as (A & B & C). split; [constructor; auto|split; [auto|lia]].
  - split; [constructor|split; [|lia]]. constructor; auto.
    rewrite Forall_forall in *; intros y Hy; specialize (Ha y Hy); lia.
Qed.

Lemma sorted_skipn n v : sorted v -> sorted (skipn n v).
Proof. intros H. rewrite <- (firstn_skipn n v) in H. apply sorted_app in H; tauto. Qed.
Lemma sorted_firstn n v : sorted v -> sorted (firstn n v).
Proof. intros H. rewrite <- (firstn_skipn n v) in H. apply sorted_app in H; tauto. Qed.

Lemma Forall_firstn {A} (P : A -> Prop) n l : Forall P l -> Forall P (firstn n l).
Proof. intros H. rewrite <- (firstn_skipn n l), Forall_app in H. tauto. Qed.
Lemma Forall_skipn {A} (P : A -> Prop) n l : Forall P l -> Forall P (skipn n l).
Proof. intros H. rewrite <- (firstn_skipn n l), Forall_app in H. tauto. Qed.

Lemma skipn_cons {A} (l : list A) i e : nth_error l i = Some e -> skipn i l = e :: skipn (S i) l.
Proof. revert i; induction l as [|a l IH]; intros [|i]; simpl; intros H; try discriminate.
  - congruence. - rewrite IH by auto. reflexivity. Qed.

Lemma skipn_plus {A} i k (v : list A) : skipn k (skipn i v) = skipn (i + k) v.
Proof. revert v. induction i as [|i IH]; intros v; simpl; auto.
  destruct v; [apply skipn_nil|apply IH]. Qed.

(** [test] answers membership. *)
Lemma test_par M v x : canon M v -> rs_test v x = par v x.
Proof.
  intros [Hs He Hb]. unfold rs_test, par.
  destruct (lower_split v x Hs) as (A & B & C).
  set (i := lower_bound v x) in *.
  assert (E : cnt v x = (i + cnt (skipn i v) x)%nat).
  { rewrite <- (firstn_skipn i v) at 1. rewrite cnt_app, cnt_all.
    - rewrite firstn_length_le; auto.
    - eapply Forall_impl; [|exact A]. simpl; intros; lia. }
  rewrite E. destruct (nth_error v i) as [e|] eqn:Hn.
  - rewrite (skipn_cons _ _ _ Hn) in *. cbn [cnt].
    inversion B as [|? ? Hxe _]; subst.
    assert (Hz : cnt (skipn (S i) v) x = O).
    { apply cnt_none. pose proof (sorted_skipn i v Hs) as Hs'. rewrite (skipn_cons _ _ _ Hn) in Hs'.
      inversion Hs' as [|? ? _ Hf]; subst. eapply Forall_impl; [|exact Hf]. simpl; intros; lia. }
    rewrite Hz. destruct (N.leb_spec e x).
    + replace e with x in * by lia. rewrite Nat.add_1_r, Nat.odd_succ, <- Nat.negb_odd.
      destruct (Nat.odd i); simpl; [apply N.ltb_irrefl | apply N.eqb_refl].
    + rewrite Nat.add_0_r. destruct (Nat.odd i).
      * apply N.ltb_lt; lia. * apply N.eqb_neq; lia.
  - apply nth_error_None in Hn. rewrite skipn_all2 by lia. simpl.
    assert (i = length v) by lia. subst i. rewrite Nat.add_0_r, H. rewrite <- Nat.negb_even, He. reflexivity.
Qed.

(** The vector built by [insert], in one formula. *)
Definition ins_vec (v : rset) (first last : N) : rset :=
  let l := lower_bound v first in
  let u := (l + upper_bound (skipn l v) last)%nat in
  firstn l v ++ (if Nat.odd l then [] else [first]) ++ (if Nat.odd u then [] else [last]) ++ skipn u v.

Lemma insert_vec M v f l : canon M v -> f < l -> rs_insert v f l = ins_vec v f l.
Proof.
  intros [Hs He Hb] H. unfold rs_insert, ins_vec. destruct (N.eqb_spec f l); [lia|].
  set (i := lower_bound v f). set (u := (i + upper_bound (skipn i v) l)%nat).
  assert (Hi : (i <= length v)%nat) by (apply lower_split; auto).
  destruct (Nat.eqb_spec i (length v)); cbn [orb].
  - assert (U : u = i). { unfold u. rewrite e, skipn_all. simpl. lia. }
    rewrite U, e, <- Nat.negb_even, He. simpl. rewrite skipn_all. reflexivity.
  - destruct (Nat.eqb_spec u 0).
    + assert (i = O) by lia. rewrite H0, e. reflexivity.
    + destruct (Nat.odd i), (Nat.odd u); reflexivity.
Qed.

Lemma ins_vec_par v f l x : sorted v -> f < l ->
  par (ins_vec v f l) x = ((f <=? x) && (x <? l)) || par v x.
Proof.
  intros Hs H. unfold ins_vec, par.
  destruct (lower_split v f Hs) as (A & B & C). set (i := lower_bound v f) in *.
  destruct (upper_split (skipn i v) l (sorted_skipn i v Hs)) as (D & E & F).
  set (k := upper_bound (skipn i v) l) in *.
  rewrite skipn_length in F.
  assert (Su : skipn k (skipn i v) = skipn (i + k) v).
  { apply skipn_plus. }
  rewrite Su in E.
  assert (V : v = firstn i v ++ firstn k (skipn i v) ++ skipn (i + k) v).
  { rewrite <- Su, firstn_skipn, firstn_skipn. reflexivity. }
  assert (Cv : cnt v x = (cnt (firstn i v) x + (cnt (firstn k (skipn i v)) x + cnt (skipn (i + k) v) x))%nat).
  { rewrite V at 1. rewrite !cnt_app. reflexivity. }
  rewrite !cnt_app, Cv.
  assert (L1 : length (firstn i v) = i) by (apply firstn_length_le; lia).
  assert (L2 : length (firstn k (skipn i v)) = k) by (apply firstn_length_le; rewrite skipn_length; lia).
  destruct (N.leb_spec f x); cbn [andb orb].
  - rewrite (cnt_all (firstn i v)) by (eapply Forall_impl; [|exact A]; simpl; intros; lia).
    rewrite L1.
    assert (G1 : Nat.odd (i + cnt (if Nat.odd i then [] else [f]) x) = true).
    { destruct (Nat.odd i) eqn:O; simpl; [rewrite Nat.add_0_r; auto|].
      destruct (N.leb_spec f x); [|lia]. rewrite Nat.add_1_r, Nat.odd_succ, <- Nat.negb_odd, O. reflexivity. }
    destruct (N.ltb_spec x l); cbn [orb].
    + rewrite (cnt_none (skipn (i + k) v)) by (eapply Forall_impl; [|exact E]; simpl; intros; lia).
      assert (G2 : cnt (if Nat.odd (i + k) then [] else [l]) x = O).
      { destruct (Nat.odd (i+k)); simpl; auto. destruct (N.leb_spec l x); auto; lia. }
      fold i k. rewrite G2, !Nat.add_0_r. exact G1.
    + rewrite (cnt_all (firstn k (skipn i v))) by (eapply Forall_impl; [|exact D]; simpl; intros; lia).
      rewrite L2. rewrite !Nat.add_assoc, Nat.odd_add, (Nat.odd_add (i + k)). f_equal.
      rewrite Nat.odd_add, G1.
      destruct (Nat.odd (i + k)) eqn:O; simpl; auto. destruct (N.leb_spec l x); [reflexivity|lia].
  - replace (cnt (if Nat.odd i then [] else [f]) x) with O.
    2:{ destruct (Nat.odd i); simpl; auto. destruct (N.leb_spec f x); auto; lia. }
    replace (cnt (if Nat.odd (i + k) then [] else [l]) x) with O.
    2:{ destruct (Nat.odd (i+k)); simpl; auto. destruct (N.leb_spec l x); auto; lia. }
    rewrite (cnt_none (skipn (i + k) v)) by (eapply Forall_impl; [|exact E]; simpl; intros; lia).
    rewrite (cnt_none (firstn k (skipn i v))).
    2:{ apply Forall_firstn. eapply Forall_impl; [|exact B]; simpl; intros; lia. }
    reflexivity.
Qed.

Lemma ins_vec_canon M v f l : canon M v -> f < l -> l <= M -> canon M (ins_vec v f l).
Proof.
  intros [Hs He Hb] H HM. unfold ins_vec.
  destruct (lower_split v f Hs) as (A & B & C). set (i := lower_bound v f) in *.
  destruct (upper_split (skipn i v) l (sorted_skipn i v Hs)) as (D & E & F).
  set (k := upper_bound (skipn i v) l) in *.
  rewrite skipn_length in F.
  assert (Su : skipn k (skipn i v) = skipn (i + k) v).
  { apply skipn_plus. }
  rewrite Su in E.
  rewrite Forall_forall in A, E.
  split.
  - apply sorted_app; split; [apply sorted_firstn; auto|]. split.
    + apply sorted_app; split; [destruct (Nat.odd i); repeat constructor|]. split.
      * apply sorted_app; split; [destruct (Nat.odd (i+k)); repeat constructor|]. split; [apply sorted_skipn; auto|].
        intros a b Ha Hb'. destruct (Nat.odd (i+k)); [destruct Ha|]. destruct Ha as [<-|[]]. auto.
      * intros a b Ha Hb'. destruct (Nat.odd i); [destruct Ha|]. destruct Ha as [<-|[]].
        apply in_app_or in Hb' as [Hb'|Hb'].
        -- destruct (Nat.odd (i+k)); [destruct Hb'|]. destruct Hb' as [<-|[]]. auto.
        -- specialize (E b Hb'). lia.
    + intros a b Ha Hb'. specialize (A a Ha).
      apply in_app_or in Hb' as [Hb'|Hb'].
      * destruct (Nat.odd i); [destruct Hb'|]. destruct Hb' as [<-|[]]. auto.
      * apply in_app_or in Hb' as [Hb'|Hb'].
        -- destruct (Nat.odd (i+k)); [destruct Hb'|]. destruct Hb' as [<-|[]]. lia.
        -- specialize (E b Hb'). lia.
  - rewrite !app_length, firstn_length_le, skipn_length by auto.
    replace (length (if Nat.odd i then [] else [f])) with (if Nat.odd i then 0 else 1)%nat by (destruct (Nat.odd i); auto).
    replace (length (if Nat.odd (i+k) then [] else [l])) with (if Nat.odd (i+k) then 0 else 1)%nat by (destruct (Nat.odd (i+k)); auto).
    destruct (Nat.Even_or_Odd i) as [Ei|Ei]; destruct (Nat.Even_or_Odd (i+k)) as [Ek|Ek];
      repeat match goal with
      | H : Nat.Even ?n |- context [Nat.odd ?n] =>
          replace (Nat.odd n) with false by (symmetry; rewrite <- Nat.negb_even; apply Nat.even_spec in H; rewrite H; auto)
      | H : Nat.Odd ?n |- context [Nat.odd ?n] =>
          replace (Nat.odd n) with true by (symmetry; apply Nat.odd_spec; auto)
      end;
      apply Nat.even_spec; apply Nat.even_spec in He; destruct Ei as [a Ei], Ek as [b Ek], He as [c He].
    + exists (a + 1 + (c - b))%nat. lia.
    + exists (a + (c - b))%nat. lia.
    + exists (a + 1 + (c - b))%nat. lia.
    + exists (a + (c - b))%nat. lia.
  - rewrite !Forall_app. repeat split; auto using Forall_firstn, Forall_skipn.
    + destruct (Nat.odd i); repeat constructor. lia.
    + destruct (Nat.odd (i+k)); repeat constructor. lia.
Qed.

Lemma insert_canon M v f l : canon M v -> f <= l -> l <= M -> canon M (rs_insert v f l).
Proof.
  intros Hc H HM. destruct (N.eq_dec f l) as [->|].
  - unfold rs_insert. rewrite N.eqb_refl. auto.
  - rewrite (insert_vec M) by (auto; lia). apply ins_vec_canon; auto; lia.
Qed.

Lemma insert_par M v f l x : canon M v -> f <= l ->
  par (rs_insert v f l) x = ((f <=? x) && (x <? l)) || par v x.
Proof.
  intros Hc H. destruct (N.eq_dec f l) as [->|].
  - unfold rs_insert. rewrite N.eqb_refl.
    destruct (N.leb_spec l x), (N.ltb_spec x l); simpl; auto; lia.
  - rewrite (insert_vec M) by (auto; lia). apply ins_vec_par; [apply Hc|lia].
Qed.

(** complement *)
Lemma canon_empty M : canon M [].
Proof. split; [constructor|auto|constructor]. Qed.

Lemma canon_full M : 0 < M -> canon M (rs_full M).
Proof. intros H; split; [|reflexivity|]; repeat constructor; lia. Qed.

Lemma flip_spec M v : 0 < M -> canon M v ->
  exists w, rs_flip M v = Ok w /\ canon M w /\ (forall x, x < M -> par w x = negb (par v x)).
Proof.
  intros HM [Hs He Hb]. destruct v as [|a t].
  - exists (rs_full M). repeat split; auto; try (apply canon_full; auto). 
    intros x Hx. unfold par; simpl. destruct (N.leb_spec M x); [lia|]. destruct (N.leb_spec 0 x); [|lia]. reflexivity.
  - cbn [rs_flip]. set (v1 := if a =? 0 then t else 0 :: a :: t).
    assert (Hne : t <> []) by (intros ->; discriminate).
    inversion Hs as [|? ? Hst Ha]; subst. inversion Hb as [|? ? Hba Hbt]; subst.
    assert (P1 : sorted v1 /\ Forall (fun e => e <= M) v1 /\ v1 <> [] /\ Nat.odd (length v1) = true
                 /\ forall x, par v1 x = negb (par (a :: t) x)).
    { unfold v1. destruct (N.eqb_spec a 0).
      - subst a. repeat split; auto.
        + cbn [length] in He. rewrite Nat.even_succ in He. exact He.
        + intros x. unfold par. cbn [cnt]. destruct (N.leb_spec 0 x); [|lia].
          rewrite Nat.odd_succ, <- Nat.negb_odd, negb_involutive. reflexivity.
      - repeat split.
        + constructor; auto. constructor; [lia|]. eapply Forall_impl; [|exact Ha]; simpl; intros; lia.
        + constructor; [lia|auto].
        + discriminate.
        + change (length (0 :: a :: t)) with (S (length (a :: t))). rewrite Nat.odd_succ. auto.
        + intros x. unfold par. cbn [cnt]. destruct (N.leb_spec 0 x); [|lia].
          rewrite Nat.odd_succ, <- Nat.negb_odd. reflexivity. }
    clearbody v1. destruct P1 as (S1 & B1 & N1 & O1 & X1).
    destruct (rev v1) as [|b r] eqn:R.
    { destruct N1. rewrite <- (rev_involutive v1), R. reflexivity. }
    assert (V1 : v1 = rev r ++ [b]) by (rewrite <- (rev_involutive v1), R; reflexivity).
    eexists; split; [reflexivity|]. 
    pose proof S1 as S1'. rewrite V1 in S1'. apply sorted_app in S1' as (S2 & _ & S3).
    pose proof B1 as B1'. rewrite V1, Forall_app in B1'. destruct B1' as [B2 B3].
    assert (Hb0 : b <= M) by (inversion B3; auto).
    rewrite V1, app_length, Nat.add_1_r, Nat.odd_succ in O1.
    destruct (N.eqb_spec b M) as [->|Hbm].
    + split.
      * split; auto.
      * intros x Hx. rewrite <- X1, V1. unfold par. rewrite cnt_app. simpl.
        destruct (N.leb_spec M x); [lia|]. rewrite Nat.add_0_r. reflexivity.
    + split.
      * split.
        -- apply sorted_app; split; [auto|]. split; [repeat constructor|].
           intros y z Hy [<-|[]]. rewrite V1 in Hy. apply in_app_or in Hy as [Hy|[<-|[]]]; [|lia].
           specialize (S3 y b Hy (or_introl eq_refl)). lia.
        -- rewrite app_length, Nat.add_1_r, V1, app_length, Nat.add_1_r, Nat.even_succ, Nat.odd_succ. auto.
        -- rewrite Forall_app; split; auto. constructor; [lia|constructor].
      * intros x Hx. rewrite <- X1. unfold par. rewrite cnt_app. simpl.
        destruct (N.leb_spec M x); [lia|]. rewrite Nat.add_0_r. reflexivity.
Qed.

(** union *)
Lemma even_SS_tail M a b t : canon M (a :: b :: t) -> canon M t /\ a < b /\ b <= M /\ Forall (fun e => b < e) t.
Proof.
  intros [Hs He Hb]. inversion Hs as [|? ? Hs1 Ha]; subst. inversion Hs1 as [|? ? Hs2 Hb1]; subst.
  inversion Hb as [|? ? Hba Hb2]; subst. inversion Hb2; subst. inversion Ha; subst.
  repeat split; auto.
Qed.

Lemma par_pair a b t x : a < b -> Forall (fun e => b < e) t ->
  par (a :: b :: t) x = ((a <=? x) && (x <? b)) || par t x.
Proof.
  intros H Ht. unfold par. simpl.
  destruct (N.leb_spec a x), (N.leb_spec b x), (N.ltb_spec x b); simpl; try lia; auto.
  - rewrite (cnt_none t) by (eapply Forall_impl; [|exact Ht]; simpl; intros; lia). reflexivity.
Qed.

Lemma or_spec M r : forall v, canon M r -> canon M v ->
  exists w, rs_or v r = Ok w /\ canon M w /\ forall x, par w x = par v x || par r x.
Proof.
  assert (G : forall n r, (length r <= n)%nat -> forall v, canon M r -> canon M v ->
    exists w, rs_or v r = Ok w /\ canon M w /\ forall x, par w x = par v x || par r x).
  2:{ intros; apply (G (length r)); auto. }
  clear r. induction n as [|n IH]; intros r Hn v Hr Hv.
  - destruct r; [|simpl in Hn; lia]. exists v; repeat split; auto; try apply Hv. intros; unfold par at 3; simpl.
    rewrite orb_false_r; auto.
  - destruct r as [|a [|b t]].
    + exists v; split; [auto|split; [auto|]]. intros; unfold par at 3; simpl. rewrite orb_false_r; auto.
    + destruct Hr as [_ He _]; discriminate.
    + destruct (even_SS_tail _ _ _ _ Hr) as (Ht & Hab & HbM & Hf).
      destruct (IH t ltac:(simpl in Hn; lia) (rs_insert v a b) Ht (insert_canon M v a b Hv ltac:(lia) HbM))
        as (w & E & Cw & Pw).
      exists w; split; [exact E|split; [auto|]]. intros x. rewrite Pw, (insert_par M), par_pair by (auto; lia).
      destruct (a <=? x), (x <? b), (par v x), (par t x); reflexivity.
Qed.

Lemma and_spec M v r : 0 < M -> canon M v -> canon M r ->
  exists w, rs_and M v r = Ok w /\ canon M w /\ forall x, x < M -> par w x = par v x && par r x.
Proof.
  intros HM Hv Hr. unfold rs_and.
  destruct (flip_spec M v HM Hv) as (nv & E1 & C1 & P1).
  destruct (flip_spec M r HM Hr) as (nr & E2 & C2 & P2).
  destruct (or_spec M nr nv C2 C1) as (o & E3 & C3 & P3).
  destruct (flip_spec M o HM C3) as (w & E4 & C4 & P4).
  exists w. rewrite E1, E2; cbn [bind]. rewrite E3; cbn [bind]. split; [auto|split; [auto|]].
  intros x Hx. rewrite P4, P3, P1, P2 by auto. destruct (par v x), (par r x); reflexivity.
Qed.

Lemma sub_spec M v r : 0 < M -> canon M v -> canon M r ->
  exists w, rs_sub M v r = Ok w /\ canon M w /\ forall x, x < M -> par w x = par v x && negb (par r x).
Proof.
  intros HM Hv Hr. unfold rs_sub.
  destruct (flip_spec M r HM Hr) as (nr & E2 & C2 & P2). rewrite E2; cbn [bind].
  destruct (and_spec M v nr HM Hv C2) as (w & E & C & P). exists w; split; [auto|split; [auto|]].
  intros x Hx. rewrite P, P2 by auto. reflexivity.
Qed.

Lemma xor_spec M v r : 0 < M -> canon M v -> canon M r ->
  exists w, rs_xor M v r = Ok w /\ canon M w /\ forall x, x < M -> par w x = xorb (par v x) (par r x).
Proof.
  intros HM Hv Hr. unfold rs_xor.
  destruct (flip_spec M r HM Hr) as (nr & E2 & C2 & P2). rewrite E2; cbn [bind].
  destruct (and_spec M v nr HM Hv C2) as (a & E3 & C3 & P3). rewrite E3; cbn [bind].
  destruct (flip_spec M v HM Hv) as (nv & E4 & C4 & P4). rewrite E4; cbn [bind].
  destruct (and_spec M nv r HM C4 Hr) as (b & E5 & C5 & P5). rewrite E5; cbn [bind].
  destruct (or_spec M b a C5 C3) as (w & E6 & C6 & P6). exists w; split; [auto|split; [auto|]].
  intros x Hx. rewrite P6, P3, P5, P2, P4 by auto. destruct (par v x), (par r x); reflexivity.
Qed.

Lemma erase_spec M v f l : 0 < M -> canon M v -> f <= l -> l <= M ->
  exists w, rs_erase M v f l = Ok w /\ canon M w /\
    forall x, x < M -> par w x = par v x && negb ((f <=? x) && (x <? l)).
Proof.
  intros HM Hv Hf Hl. unfold rs_erase.
  destruct (flip_spec M v HM Hv) as (nv & E4 & C4 & P4). rewrite E4; cbn [bind].
  destruct (flip_spec M _ HM (insert_canon M nv f l C4 Hf Hl)) as (w & E & C & P).
  exists w; split; [auto|split; [auto|]]. intros x Hx. rewrite P, (insert_par M), P4 by auto.
  destruct (par v x), ((f <=? x) && (x <? l)); reflexivity.
Qed.

Lemma set_spec M v pos b : 0 < M -> canon M v -> pos < M ->
  exists w, rs_set M v pos b = Ok w /\ canon M w /\
    forall x, x < M -> par w x = if x =? pos then b else par v x.
Proof.
  intros HM Hv Hp. unfold rs_set. destruct b.
  - eexists; split; [reflexivity|split; [apply insert_canon; auto; lia|]].
    intros x Hx. rewrite (insert_par M) by (auto; lia).
    destruct (N.eqb_spec x pos); [subst; destruct (N.leb_spec pos pos), (N.ltb_spec pos (pos+1)); auto; lia|].
    destruct (N.leb_spec pos x), (N.ltb_spec x (pos+1)); auto; lia.
  - destruct (erase_spec M v pos (pos+1) HM Hv ltac:(lia) ltac:(lia)) as (w & E & C & P).
    exists w; split; [auto|split; [auto|]]. intros x Hx. rewrite P by auto.
    destruct (N.eqb_spec x pos); [subst; destruct (N.leb_spec pos pos), (N.ltb_spec pos (pos+1)); try lia; simpl; apply andb_false_r|].
    destruct (N.leb_spec pos x), (N.ltb_spec x (pos+1)); simpl; try apply andb_true_r; lia.
Qed.

(** Two canonical vectors with the same members are equal. *)
Lemma par_cons a t x : par (a :: t) x = if a <=? x then negb (par t x) else par t x.
Proof. unfold par; simpl. destruct (a <=? x); auto. rewrite Nat.odd_succ, <- Nat.negb_odd. reflexivity. Qed.

Lemma par_above t x : Forall (fun e => x < e) t -> par t x = false.
Proof. intros; unfold par; rewrite cnt_none; auto. Qed.

Lemma vec_unique M v : forall w, sorted v -> sorted w ->
  Forall (fun e => e <= M) v -> Forall (fun e => e <= M) w ->
  Nat.even (length v) = Nat.even (length w) ->
  (forall x, x < M -> par v x = par w x) -> v = w.
Proof.
  assert (Z : forall b w, sorted (b :: w) -> Forall (fun e => e <= M) (b :: w) -> Nat.even (length (b :: w)) = true ->
     b < M /\ par (b :: w) b = true).
  { intros b w Hs Hb He. inversion Hs as [|? ? _ Hl]; subst. inversion Hb as [|? ? _ Hb']; subst. split.
    - destruct w as [|c w]; [discriminate|]. inversion Hl; inversion Hb'; subst; lia.
    - rewrite par_cons, par_above by auto. destruct (N.leb_spec b b); [reflexivity|lia]. }
  induction v as [|a v IH]; intros [|b w] Hv Hw Bv Bw He P; auto.
  - destruct (Z b w Hw Bw (eq_sym He)) as [Z1 Z2]. rewrite <- P in Z2 by auto. discriminate.
  - destruct (Z a v Hv Bv He) as [Z1 Z2]. rewrite P in Z2 by auto. discriminate.
  - assert (Q : forall a b v w, sorted (a :: v) -> sorted (b :: w) -> Forall (fun e => e <= M) (b :: w) ->
       (forall x, x < M -> par (a :: v) x = par (b :: w) x) -> a < b -> False).
    { clear. intros a b v w Hv Hw Hb P H. inversion Hv as [|? ? _ Hl]; subst. inversion Hb; subst.
      specialize (P a ltac:(lia)). rewrite par_cons, par_above in P by auto.
      rewrite par_above in P. 2:{ inversion Hw as [|? ? _ Hlw]; subst. constructor; [auto|]. eapply Forall_impl; [|exact Hlw]; simpl; intros; lia. }
      destruct (N.leb_spec a a); [discriminate|lia]. }
    assert (a = b).
    { destruct (N.lt_trichotomy a b) as [H|[H|H]]; auto; exfalso; [eapply Q with (5:=H); eauto|].
      eapply Q with (5:=H); eauto. intros; symmetry; auto. }
    subst b. f_equal. inversion Hv as [|? ? Hv1 Hl1]; subst. inversion Hw as [|? ? Hw1 Hl2]; subst.
    inversion Bv; inversion Bw; subst. apply IH; auto.
    + change (length (a :: v)) with (S (length v)) in He. change (length (a :: w)) with (S (length w)) in He.
      rewrite !Nat.even_succ, <- !Nat.negb_even in He. destruct (Nat.even (length v)), (Nat.even (length w)); auto.
    + intros x Hx. specialize (P x Hx). rewrite !par_cons in P. destruct (N.leb_spec a x).
      * destruct (par v x), (par w x); auto.
      * rewrite (par_above v), (par_above w); auto;
          [eapply Forall_impl; [|exact Hl2]|eapply Forall_impl; [|exact Hl1]]; simpl; intros; lia.
Qed.

Lemma canon_unique M v w : canon M v -> canon M w -> (forall x, x < M -> par v x = par w x) -> v = w.
Proof. intros [S1 E1 B1] [S2 E2 B2]. apply vec_unique with (M := M); auto. congruence. Qed.

(** The bitset constructor, when the bitset has as many bits as the universe. *)
Lemma run_length_nth bits k : (k < run_length bits)%nat -> nth_error bits k = Some true.
Proof. revert k; induction bits as [|[|] t IH]; simpl; intros [|k] H; try lia; auto. apply IH; lia. Qed.

Lemma run_length_le bits : (run_length bits <= length bits)%nat.
Proof. induction bits as [|[|] t IH]; simpl; lia. Qed.

Lemma run_length_end bits : (run_length bits < length bits)%nat -> nth_error bits (run_length bits) = Some false.
Proof. induction bits as [|[|] t IH]; simpl; intros H; auto; try lia. apply IH; lia. Qed.

Definition bit_at (bits : list bool) (i x : N) : bool :=
  (i <=? x) && nth (N.to_nat (x - i)) bits false.

Lemma of_bits_spec M : forall bits skip i, i + N.of_nat (length bits) = M ->
  let v := rs_of_bits M M skip i bits in
  sorted v /\ Nat.even (length v) = true /\ Forall (fun e => i + N.of_nat skip <= e /\ e <= M) v /\
  (forall x, i + N.of_nat skip <= x -> x < M -> par v x = nth (N.to_nat (x - i)) bits false).
Proof.
  induction bits as [|b t IH]; intros skip i HM; cbn [rs_of_bits].
  - split; [constructor|]. split; auto. split; [constructor|].
    intros x H1 H2. destruct (N.to_nat (x - i)); reflexivity.
  - cbn [length] in HM. assert (HM' : i + 1 + N.of_nat (length t) = M) by lia.
    assert (Sh : forall x, i < x -> nth (N.to_nat (x - i)) (b :: t) false = nth (N.to_nat (x - (i + 1))) t false).
    { intros x Hx. replace (N.to_nat (x - i)) with (S (N.to_nat (x - (i + 1)))) by lia. reflexivity. }
    destruct skip as [|k]; [destruct b|].
    + set (j := i + 1 + N.of_nat (run_length t)).
      pose proof (run_length_le t) as Hr.
      replace (if j <? M then i :: j :: rs_of_bits M M (N.to_nat (j - i)) (i + 1) t
               else if j =? M then i :: j :: rs_of_bits M M (N.to_nat (j - i)) (i + 1) t
               else rs_of_bits M M (N.to_nat (j - i)) (i + 1) t)
        with (i :: j :: rs_of_bits M M (N.to_nat (j - i)) (i + 1) t).
      2:{ destruct (N.ltb_spec j M); auto. destruct (N.eqb_spec j M); auto. lia. }
      destruct (IH (N.to_nat (j - i)) (i + 1) HM') as (A & B & C & D).
      set (w := rs_of_bits M M (N.to_nat (j - i)) (i + 1) t) in *.
      assert (C' : Forall (fun e => j < e) w) by (eapply Forall_impl; [|exact C]; simpl; intros; lia).
      split; [|split; [|split]].
      * constructor; [constructor; auto|]. constructor; [lia|]. eapply Forall_impl; [|exact C']; simpl; intros; lia.
      * exact B.
      * constructor; [lia|]. constructor; [lia|]. eapply Forall_impl; [|exact C]; simpl; intros; lia.
      * intros x H1 H2. rewrite par_pair by (auto; lia).
        destruct (N.eq_dec x i) as [->|Hne].
        { rewrite N.sub_diag. simpl. destruct (N.leb_spec i i), (N.ltb_spec i j); auto; lia. }
        rewrite Sh by lia.
        destruct (N.lt_trichotomy x j) as [H|[H|H]].
        -- replace (i <=? x) with true by (symmetry; apply N.leb_le; lia).
           replace (x <? j) with true by (symmetry; apply N.ltb_lt; lia). symmetry; cbn [andb orb].
           apply nth_error_nth. apply run_length_nth. lia.
        -- subst x. rewrite N.ltb_irrefl, andb_false_r. cbn [orb]. rewrite par_above by auto. symmetry.
           apply nth_error_nth. replace (N.to_nat (j - (i + 1))) with (run_length t) by lia.
           apply run_length_end. lia.
        -- replace (x <? j) with false by (symmetry; apply N.ltb_ge; lia). rewrite andb_false_r. cbn [orb].
           apply D; lia.
    + destruct (IH O (i + 1) HM') as (A & B & C & D).
      split; [auto|split; [auto|split]]; [eapply Forall_impl; [|exact C]; simpl; intros; lia|].
      intros x H1 H2. destruct (N.eq_dec x i) as [->|Hne].
      * rewrite N.sub_diag. simpl. apply par_above. eapply Forall_impl; [|exact C]; simpl; intros; lia.
      * rewrite Sh by lia. apply D; lia.
    + destruct (IH k (i + 1) HM') as (A & B & C & D).
      split; [auto|split; [auto|split]]; [eapply Forall_impl; [|exact C]; simpl; intros; lia|].
      intros x H1 H2. rewrite Sh by lia. apply D; lia.
Qed.

Lemma bitset_ctor_spec M bits : N.of_nat (length bits) = M ->
  canon M (rs_bitset_ctor M bits) /\
  forall x, x < M -> par (rs_bitset_ctor M bits) x = nth (N.to_nat x) bits false.
Proof.
  intros H. unfold rs_bitset_ctor. rewrite H.
  destruct (of_bits_spec M bits O 0 ltac:(lia)) as (A & B & C & D). split.
  - split; auto. eapply Forall_impl; [|exact C]; simpl; intros; lia.
  - intros x Hx. rewrite D by lia. rewrite N.sub_0_r. reflexivity.
Qed.

(** Counting. *)
Definition indicator (b : bool) : N := if b then 1 else 0.

Fixpoint sum_below (f : N -> bool) (n : nat) : N :=
  match n with O => 0 | S k => sum_below f k + indicator (f (N.of_nat k)) end.

Lemma sum_below_ext f g n : (forall x, x < N.of_nat n -> f x = g x) -> sum_below f n = sum_below g n.
Proof. induction n as [|n IH]; simpl; intros H; auto. rewrite IH, H; auto; [lia|]. intros; apply H; lia. Qed.

Lemma sum_below_range a b n : a <= b -> b <= N.of_nat n ->
  sum_below (fun x => (a <=? x) && (x <? b)) n = b - a.
Proof.
  intros Hab. revert b Hab. induction n as [|n IH]; intros b Hab Hb; simpl; [lia|].
  destruct (N.eq_dec b (N.of_nat (S n))) as [->|].
  - rewrite (sum_below_ext _ (fun x => (a <=? x) && (x <? N.of_nat n))).
    + destruct (N.leb_spec a (N.of_nat n)), (N.ltb_spec (N.of_nat n) (N.of_nat (S n))); try lia; cbn [andb indicator].
      * rewrite IH by lia. unfold indicator. lia.
      * replace a with (N.of_nat (S n)) by lia. replace (sum_below _ n) with 0; [unfold indicator; lia|].
        rewrite (sum_below_ext _ (fun _ => false)). 
        -- clear. induction n; simpl; auto. rewrite <- IHn. reflexivity.
        -- intros x Hx. destruct (N.leb_spec (N.of_nat (S n)) x); auto; lia.
    + intros x Hx. destruct (N.leb_spec a x), (N.ltb_spec x (N.of_nat (S n))), (N.ltb_spec x (N.of_nat n)); simpl; auto; lia.
  - rewrite IH by lia. destruct (N.ltb_spec (N.of_nat n) b); [lia|]. rewrite andb_false_r. unfold indicator; lia.
Qed.

Lemma sum_below_or f g n : (forall x, f x && g x = false) ->
  sum_below (fun x => f x || g x) n = sum_below f n + sum_below g n.
Proof.
  intros H. induction n as [|n IH]; simpl; [lia|]. rewrite IH. specialize (H (N.of_nat n)).
  unfold indicator. destruct (f (N.of_nat n)), (g (N.of_nat n)); simpl in *; try discriminate; lia.
Qed.

Lemma count_spec M v : canon M v -> rs_count v = Ok (sum_below (par v) (N.to_nat M)).
Proof.
  assert (G : forall n v, (length v <= n)%nat -> canon M v -> rs_count v = Ok (sum_below (par v) (N.to_nat M))).
  2:{ intros; apply (G (length v)); auto. }
  clear v. assert (Z : sum_below (par []) (N.to_nat M) = 0).
  { generalize (N.to_nat M). induction n; simpl; auto. rewrite IHn. reflexivity. }
  induction n as [|n IH]; intros v Hn Hc.
  - destruct v; [|simpl in Hn; lia]. rewrite Z. reflexivity.
  - destruct v as [|a [|b t]]; [rewrite Z; reflexivity|destruct Hc as [_ He _]; discriminate|].
    destruct (even_SS_tail _ _ _ _ Hc) as (Ht & Hab & HbM & Hf).
    cbn [rs_count]. rewrite IH by (auto; simpl in Hn; lia). cbn [bind]. f_equal.
    rewrite (sum_below_ext (par (a :: b :: t)) (fun x => ((a <=? x) && (x <? b)) || par t x)).
    2:{ intros; apply par_pair; auto. }
    rewrite sum_below_or; [rewrite sum_below_range by lia; reflexivity|].
    intros x; destruct (N.ltb_spec x b); [|rewrite andb_false_r; reflexivity].
    rewrite (par_above t), andb_false_r; auto. eapply Forall_impl; [|exact Hf]; simpl; intros; lia.
Qed.
