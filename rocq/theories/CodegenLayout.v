(** The first pass of the code generator: order of the states, ranks and addresses. *)
From Verif Require Import Base InstrModel NfaModel CodegenModel CodegenSpec.
From Verif Require Import VmModel VmGeneric.
Open Scope N_scope.

(** * The visit *)

Definition undisc (disc : list bool) : nat := length (filter negb disc).

Lemma undisc_upd : forall disc t, nth_error disc t = Some false -> undisc disc = S (undisc (upd disc t true)).
Proof.
  unfold undisc. induction disc as [|d disc IH]; intros [|t] H; simpl in *; try discriminate.
  - injection H as ->. simpl. auto.
  - destruct d; simpl; rewrite (IH t H); auto.
Qed.

Lemma visit_outs_ok nb : forall ts disc q disc1 q1,
  visit_outs nb ts disc q = Ok (disc1, q1) ->
  NoDup q -> (forall v, In v q -> nth_error disc v = Some true) ->
  length disc1 = length disc /\ NoDup q1 /\
  (forall v, In v q1 -> nth_error disc1 v = Some true) /\
  (forall v, In v q -> In v q1) /\
  (forall v, In v q1 -> In v q \/ (nth_error disc v = Some false /\ In v ts)) /\
  (forall v, nth_error disc v = Some true -> nth_error disc1 v = Some true) /\
  (forall v, nth_error disc1 v = Some true -> nth_error disc v = Some true \/ In v q1) /\
  (forall v, In v ts -> nth_error disc1 v = Some true) /\
  (undisc disc1 + length q1 = undisc disc + length q)%nat.
Proof.
  induction ts as [|t ts IH]; intros disc q disc1 q1 H Hnd Hq; simpl in H.
  - injection H as <- <-. repeat split; auto. easy.
  - unfold get in H. destruct (nth_error disc t) as [d|] eqn:Ed; [|discriminate]. cbn [bind] in H.
    destruct d.
    + apply IH in H; auto. destruct H as (H0 & H1 & H2 & H3 & H4 & H5 & H6 & H7 & H8).
      repeat split; auto.
      * intros v Hv. destruct (H4 v Hv) as [?|(? & ?)]; auto. right. split; simpl; auto.
      * intros v [<-|Hv]; auto.
    + assert (Hlt: (t < length disc)%nat) by (apply nth_error_Some; congruence).
      set (q2 := if nb then t :: q else q ++ [t]) in *.
      assert (Hq2: forall v, In v q2 <-> v = t \/ In v q).
      { intros v. unfold q2. destruct nb; simpl; [|rewrite in_app_iff; simpl]; intuition. }
      assert (Hnt: ~ In t q). { intros Ht. apply Hq in Ht. congruence. }
      assert (Hnd2: NoDup q2).
      { unfold q2. destruct nb; [constructor; auto|].
        apply NoDup_rev in Hnd. rewrite <- (rev_involutive (q ++ [t])). apply NoDup_rev.
        rewrite rev_app_distr. simpl. constructor; auto. rewrite <- in_rev. auto. }
      apply IH in H; auto.
      * destruct H as (H0 & H1 & H2 & H3 & H4 & H5 & H6 & H7 & H8). rewrite upd_length in H0.
        assert (Ht: nth_error disc1 t = Some true) by (apply H5; apply nth_upd_same; auto).
        repeat split; auto.
        -- intros v Hv. apply H3, Hq2. auto.
        -- intros v Hv. destruct (H4 v Hv) as [E|(E & Ht2)].
           ++ apply Hq2 in E. destruct E as [->|E]; [right; split; simpl; auto|left; auto].
           ++ right. destruct (Nat.eq_dec t v) as [->|Hne].
              ** split; simpl; auto.
              ** rewrite nth_upd_other in E by auto. split; simpl; auto.
        -- intros v Hv. apply H5. destruct (Nat.eq_dec t v) as [->|Hne].
           ++ apply nth_upd_same; auto.
           ++ rewrite nth_upd_other; auto.
        -- intros v Hv. destruct (H6 v Hv) as [E|E]; auto. destruct (Nat.eq_dec t v) as [->|Hne].
           ++ right. apply H3, Hq2. auto.
           ++ rewrite nth_upd_other in E by auto. auto.
        -- intros v [<-|Hv]; auto.
        -- rewrite (undisc_upd disc t Ed). unfold q2 in H8. destruct nb; [|rewrite app_length in H8]; simpl in *; lia.
      * intros v Hv. apply Hq2 in Hv. destruct (Nat.eq_dec t v) as [->|Hne].
        -- apply nth_upd_same; auto.
        -- rewrite nth_upd_other by auto. destruct Hv as [->|Hv]; [congruence|auto].
Qed.

Lemma visit_outs_total nb : forall ts disc q, (forall t, In t ts -> (t < length disc)%nat) ->
  exists disc1 q1, visit_outs nb ts disc q = Ok (disc1, q1).
Proof.
  induction ts as [|t ts IH]; intros disc q H; simpl; eauto.
  destruct (get_lt disc t) as (d & Ed); [apply H; left; auto|]. rewrite Ed. cbn [bind].
  destruct d; apply IH; intros; rewrite ?upd_length; apply H; right; auto.
Qed.

Fixpoint discover_all (g : nfa) (h : helper) (order : list nat) : res helper :=
  match order with
  | [] => Ok h
  | v :: r => h1 <- discover g h v ;; discover_all g h1 r
  end.

Lemma visit_ok g : forall fuel h disc q h' order,
  visit fuel g h disc q = Ok (h', order) ->
  NoDup q -> (forall v, In v q -> nth_error disc v = Some true) ->
  discover_all g h order = Ok h' /\ NoDup order /\
  (forall v, In v order -> In v q \/ nth_error disc v = Some false) /\
  (forall v, In v q -> In v order) /\
  (forall v c, In v order -> In c (outs g v) -> nth_error disc c = Some true \/ In c order) /\
  match q with [] => order = [] | v :: _ => hd_error order = Some v end.
Proof.
  induction fuel as [|fuel IH]; intros h disc q h' order H Hnd Hq.
  - destruct q; [|discriminate]. injection H as <- <-. simpl. repeat split; auto; try easy; constructor.
  - destruct q as [|v q]; simpl in H.
    + injection H as <- <-. simpl. repeat split; auto; try easy; constructor.
    + inv_bind H. inv_bind H. destruct x0 as [disc1 q1]. inv_bind H. destruct x0 as [h2 ord].
      injection H as <- <-.
      inversion Hnd; subst.
      pose proof (visit_outs_ok _ _ _ _ _ _ E0 H2 (fun u Hu => Hq u (or_intror Hu)))
        as (L0 & L1 & L2 & L3 & L4 & L5 & L6 & L7 & L8).
      destruct (IH _ _ _ _ _ E1 L1 L2) as (M1 & M2 & M3 & M4 & M5 & M6).
      assert (Hv: nth_error disc v = Some true) by (apply Hq; left; auto).
      repeat split.
      * simpl. rewrite E. cbn [bind]. auto.
      * constructor; auto. intros Hin. destruct (M3 v Hin) as [Hin'|Hin'].
        -- destruct (L4 v Hin') as [?|(? & _)]; [auto|congruence].
        -- rewrite (L5 v Hv) in Hin'. discriminate.
      * intros u [<-|Hu]; [left; left; auto|]. destruct (M3 u Hu) as [Hu'|Hu'].
        -- destruct (L4 u Hu') as [?|(? & _)]; [left; right; auto|right; auto].
        -- right. destruct (nth_error disc u) as [[|]|] eqn:Eu; auto.
           ++ apply L5 in Eu. congruence.
           ++ apply nth_error_None in Eu. rewrite <- L0 in Eu. apply nth_error_None in Eu. congruence.
      * intros u [<-|Hu]; [left; auto|right; auto].
      * intros u c [<-|Hu] Hc.
        -- destruct (L6 c (L7 c Hc)) as [?|?]; auto. right. right. auto.
        -- destruct (M5 u c Hu Hc) as [Hd|?]; [|right; right; auto].
           destruct (L6 c Hd) as [?|?]; auto. right. right. auto.
Qed.

Lemma visit_total g : (forall v c, edge g v c -> (c < length g)%nat) ->
  forall fuel h disc q,
  length disc = length g -> length (h_ranks h) = length g -> length (h_snips h) = length g ->
  NoDup q -> (forall v, In v q -> nth_error disc v = Some true) ->
  (undisc disc + length q <= fuel)%nat ->
  exists h' order, visit fuel g h disc q = Ok (h', order).
Proof.
  intros HE. induction fuel as [|fuel IH]; intros h disc q L1 L2 L3 Hnd Hq Hf.
  - destruct q; [simpl; eauto|simpl in Hf; lia].
  - destruct q as [|v q]; simpl; [eauto|].
    assert (Hv: (v < length g)%nat).
    { rewrite <- L1. apply nth_error_Some. rewrite (Hq v) by (left; auto). discriminate. }
    inversion Hnd; subst.
    destruct (get_lt g v Hv) as (x & Ex).
    destruct (get_lt (h_snips h) v ltac:(lia)) as (s & Es).
    assert (ED: exists h1, discover g h v = Ok h1 /\ length (h_ranks h1) = length g /\ length (h_snips h1) = length g).
    { unfold discover, set_at. rewrite Ex. cbn [bind]. rewrite L2, L3, Es.
      replace (v <? length g)%nat with true by (symmetry; apply Nat.ltb_lt; auto). cbn [bind].
      destruct (1 <? length (v_in x))%nat; cbn [bind]; eexists; split; eauto; simpl; rewrite ?upd_length; auto. }
    destruct ED as (h1 & -> & D1 & D2). cbn [bind].
    destruct (visit_outs_total (length (outs g v) <? 2)%nat (outs g v) disc q) as (disc1 & q1 & E1).
    { intros t Ht. rewrite L1. apply (HE v t Ht). }
    rewrite E1. cbn [bind].
    pose proof (visit_outs_ok _ _ _ _ _ _ E1 H2 (fun u Hu => Hq u (or_intror Hu)))
        as (P0 & P1 & P2 & P3 & P4 & P5 & P6 & P7 & P8).
    destruct (IH h1 disc1 q1) as (h' & ord & E2); auto; try lia.
    { simpl in Hf. lia. }
    rewrite E2. cbn [bind]. eauto.
Qed.

(** * Discovery *)

Lemma inv_set_at {A} (l : list A) i a l' : set_at l i a = Ok l' -> (i < length l)%nat /\ l' = upd l i a.
Proof. unfold set_at. destruct (Nat.ltb_spec i (length l)); intros H'; [injection H' as <-|discriminate]; auto. Qed.

(** Facts about the helper after discovering [order]. *)
Record disc_inv (g : nfa) (h : helper) (done : list nat) : Prop := {
  di_num : h_num h = N.of_nat (length done);
  di_guard : h_guard h = 0;
  di_len1 : length (h_ranks h) = length g;
  di_len2 : length (h_snips h) = length g;
  di_rank : forall k v, nth_error done k = Some v -> nth_error (h_ranks h) v = Some (N.of_nat k);
  di_snip : forall v s, nth_error (h_snips h) v = Some s ->
     sn_jt s = false /\ (~ In v done -> s = sn_new) /\
     (sn_check s = NONE32 \/ (In v done /\ 1 <= sn_check s /\ sn_check s <= h_maxCheck h));
  di_checks : forall v1 v2 s1 s2, nth_error (h_snips h) v1 = Some s1 -> nth_error (h_snips h) v2 = Some s2 ->
     sn_check s1 <> NONE32 -> sn_check s1 = sn_check s2 -> v1 = v2;
  di_check1 : forall v x s, In v done -> nth_error g v = Some x -> nth_error (h_snips h) v = Some s ->
     (length (v_in x) <= 1)%nat -> sn_check s = NONE32;
  di_maxCheck : h_maxCheck h <= N.of_nat (length done);
  di_label : forall v x, In v done -> nth_error g v = Some x -> v_label x <> NONE32 -> v_label x <= h_maxLabel h;
  di_maxLabel : h_maxLabel h < NONE32
}.

Lemma nth_error_repeat {A} (a b : A) : forall n i, nth_error (repeat a n) i = Some b -> b = a.
Proof. intros n i H. apply nth_error_In, repeat_spec in H. auto. Qed.

Lemma disc_inv_new g : disc_inv g (helper_new (length g)) [].
Proof.
  constructor; simpl; auto; try (intros; easy).
  - apply repeat_length.
  - apply repeat_length.
  - intros [|k] v H; discriminate.
  - intros v s H. apply nth_error_repeat in H. subst s. auto.
  - intros v1 v2 s1 s2 H1 H2 H3. apply nth_error_repeat in H1. subst s1. easy.
Qed.

Definition labels32 (g : nfa) : Prop := forall v x, nth_error g v = Some x -> v_label x <= NONE32.

Lemma discover_inv g h done v h1 :
  labels32 g -> disc_inv g h done -> ~ In v done -> N.of_nat (length done) + 1 < NONE32 ->
  discover g h v = Ok h1 -> disc_inv g h1 (done ++ [v]).
Proof.
  intros HL I Hn Hlen H. unfold discover in H. inv_bind H. inv_bind H. inv_bind H. inv_bind H.
  injection H as <-.
  apply get_ok in E. apply inv_set_at in E0. destruct E0 as (Hr & ->). apply get_ok in E1.
  destruct I as [I1 I2 I3 I4 I5 I6 I7 I8 I9 I10 I11].
  destruct (I6 _ _ E1) as (S1 & S2 & S3). specialize (S2 Hn). subst x1.
  assert (Emc: (h_maxCheck h + 1) mod two32 = h_maxCheck h + 1) by (apply N.mod_small; unfold two32, NONE32 in *; lia).
  assert (Hx2: length x2 = length g /\
               forall u s, nth_error x2 u = Some s ->
                 (u = v /\ s = mkSn NONE32 NONE32 NONE32 (if (1 <? length (v_in x))%nat then h_maxCheck h + 1 else NONE32) false) \/
                 (u <> v /\ nth_error (h_snips h) u = Some s)).
  { destruct (1 <? length (v_in x))%nat eqn:Eb.
    - apply inv_set_at in E2. destruct E2 as (Hs & ->). rewrite Emc. split; [rewrite upd_length; auto|].
      intros u s Hu. destruct (Nat.eq_dec v u) as [->|Hne].
      + rewrite nth_upd_same in Hu by auto. injection Hu as <-. left. auto.
      + rewrite nth_upd_other in Hu by auto. right. auto.
    - injection E2 as <-. split; auto. intros u s Hu. destruct (Nat.eq_dec v u) as [->|Hne].
      + left. split; auto. rewrite E1 in Hu. injection Hu as <-. reflexivity.
      + right. auto. }
  destruct Hx2 as (Hl2 & Hx2).
  set (mc := if (1 <? length (v_in x))%nat then (h_maxCheck h + 1) mod two32 else h_maxCheck h).
  assert (Hmc: h_maxCheck h <= mc /\ mc <= h_maxCheck h + 1).
  { unfold mc. rewrite Emc. destruct (1 <? length (v_in x))%nat; lia. }
  constructor; cbn [h_ranks h_snips h_guard h_num h_maxLabel h_maxCheck]; auto.
  - rewrite app_length. simpl. rewrite I1. rewrite N.mod_small; unfold two32, NONE32 in *; lia.
  - rewrite upd_length. auto.
  - intros k u Hk. destruct (lt_dec k (length done)) as [Hlt|Hge].
    + rewrite nth_error_app1 in Hk by auto. rewrite nth_upd_other; auto.
      intros ->. apply Hn. eapply nth_error_In; eauto.
    + assert (k = length done).
      { assert (Hk2: nth_error (done ++ [v]) k <> None) by congruence. apply nth_error_Some in Hk2.
        rewrite app_length in Hk2. simpl in Hk2. lia. }
      subst k. rewrite nth_error_app2, Nat.sub_diag in Hk by auto. injection Hk as <-.
      rewrite nth_upd_same by auto. rewrite I1. auto.
  - intros u s Hu. destruct (Hx2 u s Hu) as [(-> & ->)|(Hne & Hu')].
    + simpl. split; auto. split. { intros H0. exfalso. apply H0, in_or_app. right. left. auto. }
      unfold mc. destruct (1 <? length (v_in x))%nat; auto. right. split; [apply in_or_app; simpl; auto|lia].
    + destruct (I6 _ _ Hu') as (T1 & T2 & T3). split; auto. split.
      { intros H0. apply T2. intros H1. apply H0, in_or_app. auto. }
      destruct T3 as [T3|(T3 & T4 & T5)]; auto. right. split; [apply in_or_app; auto|lia].
  - intros v1 v2 s1 s2 H1 H2 H3 H4.
    destruct (Hx2 v1 s1 H1) as [(-> & ->)|(N1 & U1)], (Hx2 v2 s2 H2) as [(-> & ->)|(N2 & U2)]; auto.
    + simpl in *. destruct (1 <? length (v_in x))%nat; [|easy].
      destruct (I6 _ _ U2) as (_ & _ & [T|(_ & _ & T)]); [congruence|]. exfalso. lia.
    + simpl in *. destruct (1 <? length (v_in x))%nat; [|congruence].
      destruct (I6 _ _ U1) as (_ & _ & [T|(_ & _ & T)]); [congruence|]. exfalso. lia.
    + eapply I7; eauto.
  - intros u x0 s Hu Hx0 Hs Hin. destruct (Hx2 u s Hs) as [(-> & ->)|(Hne & Hs')].
    + simpl. rewrite E in Hx0. injection Hx0 as <-.
      destruct (Nat.ltb_spec 1 (length (v_in x))); auto. lia.
    + apply in_app_or in Hu. destruct Hu as [Hu|[->|[]]]; [eauto|easy].
  - rewrite app_length. simpl. lia.
  - intros u x0 Hu Hx0 Hlab. apply in_app_or in Hu. destruct Hu as [Hu|[->|[]]].
    + specialize (I10 u x0 Hu Hx0 Hlab).
      destruct (negb (v_label x =? NONE32) && (h_maxLabel h <? v_label x)) eqn:Eb; auto. lia.
    + rewrite E in Hx0. injection Hx0 as <-.
      destruct (negb (v_label x =? NONE32) && (h_maxLabel h <? v_label x)) eqn:Eb; lia.
  - destruct (negb (v_label x =? NONE32) && (h_maxLabel h <? v_label x)) eqn:Eb; auto.
    specialize (HL v x E). lia.
Qed.

Lemma discover_all_inv g : labels32 g -> forall order h done h',
  disc_inv g h done -> NoDup (done ++ order) -> N.of_nat (length (done ++ order)) < NONE32 ->
  discover_all g h order = Ok h' -> disc_inv g h' (done ++ order).
Proof.
  intros HL. induction order as [|v order IH]; intros h done h' I Hnd Hlen H; simpl in H.
  - injection H as <-. rewrite app_nil_r. auto.
  - inv_bind H. replace (done ++ v :: order) with ((done ++ [v]) ++ order) in * by (rewrite <- app_assoc; auto).
    eapply IH; eauto. eapply discover_inv; eauto.
    + intros Hin. rewrite <- app_assoc in Hnd. simpl in Hnd. apply NoDup_remove_2 in Hnd.
      apply Hnd, in_or_app. auto.
    + rewrite !app_length in Hlen. simpl in Hlen. lia.
Qed.

(** * Addresses *)

Definition sn_size (s : snip) : N := sn_eval s + sn_other s.

Definition size_at (sn : list snip) (v : nat) : N :=
  match nth_error sn v with Some s => sn_size s | None => 0 end.

Fixpoint addr (sz : nat -> N) (l : list nat) (v : nat) : N :=
  match l with
  | [] => 0
  | u :: r => if (u =? v)%nat then 0 else sz u + addr sz r v
  end.

Fixpoint total (sz : nat -> N) (l : list nat) : N :=
  match l with [] => 0 | u :: r => sz u + total sz r end.

Lemma total_app sz a b : total sz (a ++ b) = total sz a + total sz b.
Proof. induction a; simpl; [|rewrite IHa]; lia. Qed.

Lemma total_ext f g l : (forall v, In v l -> f v = g v) -> total f l = total g l.
Proof. induction l as [|u l IH]; simpl; intros H; auto. rewrite H by auto. rewrite IH; auto. Qed.

Lemma addr_ext f g l v : (forall u, In u l -> f u = g u) -> addr f l v = addr g l v.
Proof.
  induction l as [|u l IH]; simpl; intros H; auto. destruct (u =? v)%nat; auto.
  rewrite H by auto. rewrite IH; auto.
Qed.

Lemma addr_old sz a v u : In v a -> addr sz (a ++ [u]) v = addr sz a v.
Proof.
  induction a as [|x a IH]; simpl; [easy|]. intros H. destruct (Nat.eqb_spec x v); auto.
  destruct H as [->|H]; [easy|]. rewrite IH; auto.
Qed.

Lemma addr_new sz a v : ~ In v a -> addr sz (a ++ [v]) v = total sz a.
Proof.
  induction a as [|x a IH]; simpl; intros H.
  - rewrite Nat.eqb_refl. auto.
  - destruct (Nat.eqb_spec x v); [exfalso; auto|]. rewrite IH; auto.
Qed.

Lemma addr_next sz : forall l k v u, NoDup l -> nth_error l k = Some v -> nth_error l (S k) = Some u ->
  addr sz l u = addr sz l v + sz v.
Proof.
  induction l as [|x l IH]; intros k v u Hnd Hk Hk1; [destruct k; discriminate|].
  inversion Hnd; subst. destruct k as [|k].
  - simpl in Hk. injection Hk as ->. simpl in Hk1. destruct l as [|y l]; [discriminate|].
    injection Hk1 as ->. simpl. rewrite Nat.eqb_refl. destruct (Nat.eqb_spec v u); [subst; simpl in H1; tauto|].
    rewrite Nat.eqb_refl. lia.
  - change (nth_error l k = Some v) in Hk. change (nth_error l (S k) = Some u) in Hk1. specialize (IH k v u H2 Hk Hk1).
    apply nth_error_In in Hk, Hk1. cbn [addr].
    destruct (Nat.eqb_spec x u); [subst; tauto|]. destruct (Nat.eqb_spec x v); [subst; tauto|]. lia.
Qed.

Lemma addr_disjoint sz : forall l v u, NoDup l -> In v l -> In u l -> v <> u ->
  addr sz l v + sz v <= addr sz l u \/ addr sz l u + sz u <= addr sz l v.
Proof.
  induction l as [|x l IH]; intros v u Hnd Hv Hu Hne; [easy|]. inversion Hnd; subst. simpl.
  destruct (Nat.eqb_spec x v), (Nat.eqb_spec x u); subst; try easy; try lia.
  destruct Hv as [?|Hv]; [easy|]. destruct Hu as [?|Hu]; [easy|].
  destruct (IH v u H2 Hv Hu Hne); lia.
Qed.

Lemma addr_total sz : forall l v, In v l -> addr sz l v + sz v <= total sz l.
Proof.
  induction l as [|x l IH]; intros v Hv; [easy|]. simpl. destruct (Nat.eqb_spec x v); [subst; lia|].
  destruct Hv as [?|Hv]; [easy|]. specialize (IH v Hv). lia.
Qed.

(** What finish_vertex computes for one state. *)
Record snip_ok (g : nfa) (ranks : list N) (v : nat) (x : vertex) (s : snip) : Prop := {
  so_eval : if (v =? 0)%nat then sn_eval s = 0
            else exists t, v_trans x = Some t /\ sn_eval s = numInstructions t;
  so_other : exists outOps, sn_other s = outOps + (if v_label x =? NONE32 then 0 else 1) +
       (if v_match x then (if (length (v_out x) =? 0)%nat then 2 else 3) else 0) +
       (if sn_check s =? NONE32 then 0 else 1) /\
     if sn_jt s
     then (0 < length (v_out x))%nat /\ calcJumpTableSize g v (length (v_out x)) = Ok (Some outOps)
     else (v_out x = [] \/ calcJumpTableSize g v (length (v_out x)) = Ok None) /\
          match v_out x with
          | [] => outOps = 0
          | c :: _ => exists rv rc, nth_error ranks v = Some rv /\ nth_error ranks c = Some rc /\
              outOps = 2 * N.of_nat (length (v_out x) - 1) + (if (rv + 1) mod two32 =? rc then 0 else 2)
          end
}.

(** * Bound on the size *)

Lemma pivot_add_length s ov tbl : length tbl = 256%nat -> length (pivot_add s ov tbl) = 256%nat.
Proof. intros H. unfold pivot_add. rewrite map_length, combine_length, seq_length. lia. Qed.

Lemma pivot_add_nth s ov tbl i : length tbl = 256%nat -> (i < 256)%nat ->
  nth i (pivot_add s ov tbl) [] =
   if N.testbit s (N.of_nat i) then (if existsb (Nat.eqb ov) (nth i tbl []) then nth i tbl [] else nth i tbl [] ++ [ov])
   else nth i tbl [].
Proof.
  intros H Hi. unfold pivot_add.
  set (f := fun p : nat * list nat => let '(i0, cell) := p in
      if N.testbit s (N.of_nat i0) then if existsb (Nat.eqb ov) cell then cell else cell ++ [ov] else cell).
  rewrite (nth_indep _ [] (f (0%nat, []))) by (rewrite map_length, combine_length, seq_length; lia).
  rewrite map_nth. rewrite combine_nth by (rewrite seq_length; auto). rewrite seq_nth by auto. reflexivity.
Qed.

(** ** The table of successors by byte *)

Definition has_byte (g : nfa) (b : N) (v : nat) : bool :=
  match nth_error g v with
  | Some x => match v_trans x with Some t => N.testbit (bytes_of t) b | None => false end
  | None => false
  end.

Definition dedup_add (l : list nat) (v : nat) : list nat := if existsb (Nat.eqb v) l then l else l ++ [v].

Lemma pivot_loop_ok g : forall ts tbl tbl', length tbl = 256%nat -> pivot_loop g ts tbl = Ok tbl' ->
  length tbl' = 256%nat /\
  (forall t, In t ts -> exists x tr, nth_error g t = Some x /\ v_trans x = Some tr) /\
  forall i, (i < 256)%nat ->
    nth i tbl' [] = fold_left dedup_add (filter (has_byte g (N.of_nat i)) ts) (nth i tbl []).
Proof.
  induction ts as [|t ts IH]; intros tbl tbl' Hl H; simpl in H.
  - injection H as <-. split; auto. split; [easy|]. auto.
  - inv_bind H. apply get_ok in E. destruct (v_trans x) as [tr|] eqn:Et; [|discriminate].
    apply IH in H; [|apply pivot_add_length; auto]. destruct H as (H1 & H2 & H3). split; auto.
    split. { intros u [<-|Hu]; eauto. }
    intros i Hi. rewrite (H3 i Hi), pivot_add_nth by auto. cbn [filter].
    replace (has_byte g (N.of_nat i) t) with (N.testbit (bytes_of tr) (N.of_nat i)) by (unfold has_byte; rewrite E, Et; auto).
    destruct (N.testbit (bytes_of tr) (N.of_nat i)); auto.
Qed.

Lemma pivot_loop_total g : forall ts tbl, (forall t, In t ts -> exists x tr, nth_error g t = Some x /\ v_trans x = Some tr) ->
  exists tbl', pivot_loop g ts tbl = Ok tbl'.
Proof.
  induction ts as [|t ts IH]; intros tbl H; simpl; eauto.
  destruct (H t) as (x & tr & E & Et); [left; auto|]. unfold get. rewrite E. cbn [bind]. rewrite Et.
  apply IH. intros; apply H; right; auto.
Qed.

Lemma nth_repeat_nil n i : nth i (repeat (@nil nat) n) [] = [].
Proof. revert i. induction n; intros [|i]; simpl; auto. Qed.

Lemma pivot_cell g v tbl i : pivotStates g v = Ok tbl -> (i < 256)%nat ->
  nth i tbl [] = fold_left dedup_add (filter (has_byte g (N.of_nat i)) (outs g v)) [].
Proof.
  intros H Hi. apply pivot_loop_ok in H; [|apply repeat_length]. destruct H as (_ & _ & H).
  rewrite (H i Hi), nth_repeat_nil. auto.
Qed.

Lemma dedup_in : forall ts acc v, In v (fold_left dedup_add ts acc) <-> In v acc \/ In v ts.
Proof.
  induction ts as [|t ts IH]; intros acc v; simpl; [tauto|]. rewrite IH. unfold dedup_add.
  destruct (existsb (Nat.eqb t) acc) eqn:E.
  - apply existsb_exists in E. destruct E as (y & Hy & E). apply Nat.eqb_eq in E. subst y.
    intuition. subst; auto.
  - rewrite in_app_iff. simpl. intuition.
Qed.

Lemma dedup_length : forall ts acc, (length (fold_left dedup_add ts acc) <= length acc + length ts)%nat.
Proof.
  induction ts as [|t ts IH]; intros acc; simpl; [lia|]. specialize (IH (dedup_add acc t)).
  unfold dedup_add in *. destruct (existsb (Nat.eqb t) acc); [lia|]. rewrite app_length in IH. simpl in IH. lia.
Qed.

Lemma dedup_nodup : forall ts acc, NoDup (acc ++ ts) -> fold_left dedup_add ts acc = acc ++ ts.
Proof.
  induction ts as [|t ts IH]; intros acc H; simpl; [rewrite app_nil_r; auto|].
  assert (existsb (Nat.eqb t) acc = false) as E.
  { destruct (existsb (Nat.eqb t) acc) eqn:E; auto. apply existsb_exists in E. destruct E as (y & Hy & E).
    apply Nat.eqb_eq in E. subst y. apply NoDup_remove_2 in H. exfalso. apply H, in_or_app. auto. }
  unfold dedup_add at 2. rewrite E. rewrite IH; rewrite <- app_assoc; auto.
Qed.

Lemma filter_length_le {A} (f : A -> bool) l : (length (filter f l) <= length l)%nat.
Proof. induction l; simpl; auto. destruct (f a); simpl; lia. Qed.

Lemma ind_bound m : forall tbl : table, (forall i, (i < length tbl)%nat -> (length (nth i tbl []) <= m)%nat) ->
  fold_right (fun (c : list nat) n => if (1 <? length c)%nat then N.of_nat (length c) + n else n) 0 tbl
   <= N.of_nat (length tbl) * N.of_nat m.
Proof.
  induction tbl as [|c tbl IH]; intros H; cbn [fold_right length]; [lia|].
  assert (Hc: (length c <= m)%nat) by (apply (H 0%nat); simpl; lia).
  assert (Ht: forall i, (i < length tbl)%nat -> (length (nth i tbl []) <= m)%nat).
  { intros i Hi. apply (H (S i)). simpl. lia. }
  specialize (IH Ht). destruct (1 <? length c)%nat; lia.
Qed.

Lemma used_in tbl i : In i (used tbl) -> (i < 256)%nat /\ nth i tbl [] <> [].
Proof.
  unfold used. intros H. apply filter_In in H. destruct H as (H1 & H2). apply in_seq in H1.
  split; [lia|]. destruct (nth i tbl []); easy.
Qed.

Lemma in_used tbl i : (i < 256)%nat -> nth i tbl [] <> [] -> In i (used tbl).
Proof.
  intros H1 H2. unfold used. apply filter_In. split; [apply in_seq; lia|]. destruct (nth i tbl []); easy.
Qed.

Lemma filter_sorted (f : nat -> bool) : forall n a, 
  forall x r, filter f (seq a n) = x :: r -> (a <= x)%nat /\ Forall (fun y => (x < y)%nat) r.
Proof.
  induction n as [|n IH]; intros a x r H; simpl in H; [discriminate|].
  destruct (f a).
  - injection H as <- <-. split; auto. apply Forall_forall. intros y Hy. apply filter_In in Hy.
    destruct Hy as (Hy & _). apply in_seq in Hy. lia.
  - apply IH in H. destruct H. split; auto. lia.
Qed.

Lemma filter_seq_first (f : nat -> bool) d : forall n a i, In i (filter f (seq a n)) -> (hd d (filter f (seq a n)) <= i)%nat.
Proof.
  intros n a i H. destruct (filter f (seq a n)) as [|x r] eqn:E; [easy|].
  apply filter_sorted in E. destruct E as (_ & E). destruct H as [->|H]; auto.
  rewrite Forall_forall in E. specialize (E i H). simpl. lia.
Qed.

Lemma used_first tbl i : In i (used tbl) -> (first_used tbl <= i)%nat.
Proof. exact (filter_seq_first _ _ 256 0 i). Qed.

Lemma last_in {A} (l : list A) d : l <> [] -> In (last l d) l.
Proof.
  induction l as [|a l IH]; [easy|]. intros _. destruct l as [|b l]; [left; auto|].
  right. apply IH. discriminate.
Qed.

Lemma filter_seq_last (f : nat -> bool) : forall n a i, In i (filter f (seq a n)) -> (i <= last (filter f (seq a n)) 0)%nat.
Proof.
  induction n as [|n IH]; intros a i H; [easy|].
  rewrite seq_S, filter_app in H |- *. simpl in *.
  destruct (f (a + n)%nat) eqn:E.
  - rewrite last_last. apply in_app_or in H. destruct H as [H|[<-|[]]]; auto.
    apply filter_In in H. destruct H as (H & _). apply in_seq in H. lia.
  - rewrite app_nil_r in *. auto.
Qed.

Lemma used_last tbl i : In i (used tbl) -> (i <= last_used tbl)%nat.
Proof. exact (filter_seq_last _ 256 0 i). Qed.

Lemma used_span tbl : used tbl <> [] -> (first_used tbl <= last_used tbl < 256)%nat /\ In (first_used tbl) (used tbl) /\ In (last_used tbl) (used tbl).
Proof.
  intros H. assert (Hl: In (last_used tbl) (used tbl)) by (apply last_in; auto).
  split; [split; [apply used_first; auto|apply used_in in Hl; tauto]|]. split; auto.
  unfold first_used. destruct (used tbl); [easy|]. left; auto.
Qed.


(** ** Transitions and their byte sets *)

Lemma bits_between_spec a b n : N.testbit (bits_between a b) n = (a <=? n) && (n <? b).
Proof.
  unfold bits_between. destruct (N.leb_spec a n).
  - rewrite N.shiftl_spec_high' by auto. simpl. destruct (N.ltb_spec n b).
    + apply N.ones_spec_low. lia.
    + apply N.ones_spec_high. lia.
  - simpl. apply N.shiftl_spec_low. auto.
Qed.

Lemma bytes_of_allowed t b : N.testbit (bytes_of t) b = allowed t b.
Proof.
  destruct t as [x|x y|f l|s]; cbn [bytes_of allowed]; auto.
  - rewrite N.setbit_eqb, N.bits_0, orb_false_r. apply N.eqb_sym.
  - rewrite !N.setbit_eqb, N.bits_0, orb_false_r. rewrite (N.eqb_sym x), (N.eqb_sym y). apply orb_comm.
  - rewrite bits_between_spec. f_equal. destruct (N.ltb_spec b (l + 1)), (N.leb_spec b l); auto; lia.
Qed.

Lemma has_byte_enters g b v : has_byte g b v = enters g v b.
Proof.
  unfold has_byte, enters. destruct (nth_error g v) as [x|]; auto. destruct (v_trans x); auto.
  apply bytes_of_allowed.
Qed.

Lemma trans_nonempty t : trans_ok t -> exists b, b < 256 /\ allowed t b = true.
Proof.
  destruct t as [x|x y|f l|s]; simpl.
  - intros H. exists x. split; auto. apply N.eqb_refl.
  - intros (H & _). exists x. rewrite N.eqb_refl. auto.
  - intros (H & H'). exists f. split; [lia|]. apply andb_true_iff. split; apply N.leb_le; lia.
  - intros (H & H'). exists (N.log2 s). split.
    + apply N.log2_lt_pow2; [lia|auto].
    + apply N.bit_log2. auto.
Qed.

Lemma edge_outs g v x : nth_error g v = Some x -> outs g v = v_out x.
Proof. unfold outs. intros ->. auto. Qed.

Lemma jt_size_bound g K v od n : good g K -> od = length (outs g v) -> (0 < od)%nat -> 257 + 512 * N.of_nat od < two32 ->
  calcJumpTableSize g v od = Ok (Some n) -> 2 <= n /\ n <= 257 + 512 * N.of_nat od.
Proof.
  intros G Eod Hpos Hsm H. unfold calcJumpTableSize in H. destruct (3 <? od)%nat; [|discriminate].
  inv_bind H. destruct (maxOutbound x <? od)%nat; [|discriminate]. injection H as <-.
  pose proof E as Ep. apply pivot_loop_ok in Ep; [|apply repeat_length]. destruct Ep as (Hlen & _ & _).
  assert (Hu: used x <> []).
  { destruct (outs g v) as [|c r] eqn:Eo; [simpl in Eod; lia|].
    assert (He: edge g v c) by (unfold edge; rewrite Eo; left; auto).
    destruct (gd_edge _ _ G _ _ He) as (Hc0 & Hc).
    destruct (nth_error g c) as [xc|] eqn:Ec; [|apply nth_error_None in Ec; lia].
    destruct (gd_state _ _ G c xc Hc0 Ec) as ((t & Et & Ht) & _).
    destruct (trans_nonempty t Ht) as (b & Hb & Ha).
    intros Hu. assert (Hin: In (N.to_nat b) (used x)); [|rewrite Hu in Hin; easy].
    apply in_used; [lia|]. rewrite (pivot_cell g v x _ E) by lia. rewrite N2Nat.id.
    intros Hnil. assert (Hin: In c (fold_left dedup_add (filter (has_byte g b) (outs g v)) [])); [|rewrite Hnil in Hin; easy].
    apply dedup_in. right. apply filter_In. split; [rewrite Eo; left; auto|].
    rewrite has_byte_enters. unfold enters. rewrite Ec, Et. auto. }
  destruct (used_span x Hu) as (Hs & _).
  assert (Hind := ind_bound od x). rewrite Hlen in Hind.
  assert (Hcells: forall i, (i < 256)%nat -> (length (nth i x []) <= od)%nat).
  { intros i Hi. rewrite (pivot_cell g v x _ E) by lia.
    pose proof (dedup_length (filter (has_byte g (N.of_nat i)) (outs g v)) []).
    pose proof (filter_length_le (has_byte g (N.of_nat i)) (outs g v)). simpl in *. lia. }
  specialize (Hind Hcells).
  replace ((N.of_nat (last_used x) + two32 - N.of_nat (first_used x)) mod two32) with (N.of_nat (last_used x) - N.of_nat (first_used x)).
  2:{ unfold two32. lia. }
  match goal with |- context [fold_right ?f 0 x] => set (ind := fold_right f 0 x) in * end.
  rewrite N.mod_small; lia.
Qed.

(** * The second pass: sizes and addresses *)

Definition bnd (g : nfa) (v : nat) : N := 271 + 512 * N.of_nat (length (outs g v)).

Lemma total_incl sz : forall l l', NoDup l -> incl l l' -> total sz l <= total sz l'.
Proof.
  induction l as [|x l IH]; intros l' Hnd Hi; simpl; [lia|].
  inversion Hnd as [|? ? Hx Hnd']; subst.
  destruct (in_split x l') as (a & b & ->). { apply Hi. left. auto. }
  rewrite total_app. simpl. specialize (IH (a ++ b) Hnd'). rewrite total_app in IH.
  assert (incl l (a ++ b)).
  { intros y Hy. assert (Hy': In y (a ++ x :: b)) by (apply Hi; right; auto).
    apply in_app_or in Hy'. apply in_or_app. destruct Hy' as [?|[->|?]]; auto. contradiction. }
  specialize (IH H). lia.
Qed.

Lemma total_le f h l : (forall v, In v l -> f v <= h v) -> total f l <= total h l.
Proof.
  induction l as [|x l IH]; intros H; simpl; [lia|].
  assert (f x <= h x) by (apply H; left; auto). assert (total f l <= total h l) by (apply IH; intros; apply H; right; auto). lia.
Qed.

Lemma size_bound_total g : size_bound g = total (bnd g) (seq 0 (length g)) + 2.
Proof.
  unfold size_bound.
  assert (H: forall l k, (forall i x, nth_error l i = Some x -> nth_error g (k + i) = Some x) ->
    fold_right (fun x n => 271 + 512 * N.of_nat (length (v_out x)) + n) 2 l = total (bnd g) (seq k (length l)) + 2).
  { induction l as [|x l IH]; intros k H; simpl; [lia|]. rewrite (IH (S k)).
    - unfold bnd at 2. assert (E: nth_error g k = Some x) by (rewrite <- (H 0%nat x); auto; f_equal; lia).
      unfold outs. rewrite E. lia.
    - intros i y Hi. rewrite <- (H (S i) y); auto. f_equal. lia. }
  apply H. auto.
Qed.

Lemma total_bound g l : NoDup l -> (forall v, In v l -> (v < length g)%nat) -> fits32 g ->
  total (bnd g) l + 2 < two32.
Proof.
  intros Hnd Hl HF. unfold fits32 in HF. rewrite size_bound_total in HF.
  assert (total (bnd g) l <= total (bnd g) (seq 0 (length g))); [|lia].
  apply total_incl; auto. intros v Hv. apply in_seq. specialize (Hl v Hv). lia.
Qed.

Lemma bnd_small g v : (v < length g)%nat -> fits32 g -> bnd g v + 2 < two32.
Proof.
  intros Hv HF. assert (H: total (bnd g) [v] + 2 < two32).
  { apply total_bound; auto. constructor; [easy|constructor]. intros u [<-|[]]; auto. }
  simpl in H. lia.
Qed.

Record fin_inv (g : nfa) (h0 h : helper) (done : list nat) : Prop := {
  fi_ranks : h_ranks h = h_ranks h0;
  fi_len : length (h_snips h) = length g;
  fi_maxLabel : h_maxLabel h = h_maxLabel h0;
  fi_maxCheck : h_maxCheck h = h_maxCheck h0;
  fi_guard : h_guard h = total (size_at (h_snips h)) done;
  fi_bound : forall v, In v done -> size_at (h_snips h) v <= bnd g v;
  fi_done : forall v, In v done -> exists x s s0, nth_error g v = Some x /\ nth_error (h_snips h) v = Some s /\
     nth_error (h_snips h0) v = Some s0 /\ sn_check s = sn_check s0 /\
     sn_start s = addr (size_at (h_snips h)) done v /\ snip_ok g (h_ranks h0) v x s;
  fi_todo : forall v, ~ In v done -> nth_error (h_snips h) v = nth_error (h_snips h0) v
}.

Lemma finish_vertex_inv g K h0 order h done v h1 : good g K -> fits32 g -> disc_inv g h0 order ->
  (forall u, In u (done ++ [v]) -> (u < length g)%nat) -> NoDup (done ++ [v]) ->
  fin_inv g h0 h done -> finish_vertex g h v = Ok h1 -> fin_inv g h0 h1 (done ++ [v]).
Proof.
  intros G HF D Hlt Hnd I H.
  assert (Hv: (v < length g)%nat) by (apply Hlt, in_or_app; simpl; auto).
  assert (Hn: ~ In v done). { apply NoDup_remove_2 in Hnd. rewrite app_nil_r in Hnd. auto. }
  assert (Hnd0: NoDup done). { apply NoDup_remove_1 in Hnd. rewrite app_nil_r in Hnd. auto. }
  destruct I as [I1 I2 I3 I4 I5 I6 I7 I8].
  unfold finish_vertex in H. inv_bind H. inv_bind H. inv_bind H. inv_bind H. inv_bind H. inv_bind H. injection H as <-.
  apply get_ok in E, E0. apply inv_set_at in E4. destruct E4 as (Hs & ->).
  assert (Eo: outs g v = v_out x) by (apply edge_outs; auto).
  assert (Hs0: nth_error (h_snips h0) v = Some x0) by (rewrite <- I8; auto).
  destruct (di_snip _ _ _ D v x0 Hs0) as (Hjt & _).
  set (od := length (v_out x)) in *.
  set (lab := if v_label x =? NONE32 then 0 else 1) in *.
  set (mt := if v_match x then if (od =? 0)%nat then 2 else 3 else 0) in *.
  set (ck := if sn_check x0 =? NONE32 then 0 else 1) in *.
  assert (Hlab: lab <= 1) by (unfold lab; destruct (v_label x =? NONE32); lia).
  assert (Hmt: mt <= 3) by (unfold mt; destruct (v_match x), (od =? 0)%nat; lia).
  assert (Hck: ck <= 1) by (unfold ck; destruct (sn_check x0 =? NONE32); lia).
  assert (Hev: x1 <= 9).
  { destruct (v =? 0)%nat; [injection E1 as <-; lia|]. destruct (v_trans x) as [t|]; [|discriminate].
    injection E1 as <-. destruct t; simpl; lia. }
  assert (Hbs := bnd_small g v Hv HF). unfold bnd in Hbs. rewrite Eo in Hbs. fold od in Hbs.
  (* outgoing instructions *)
  assert (Hout: x3 <= 257 + 512 * N.of_nat od /\
     if (match x2 with Some _ => true | None => sn_jt x0 end)
     then (0 < od)%nat /\ calcJumpTableSize g v od = Ok (Some x3)
     else (v_out x = [] \/ calcJumpTableSize g v od = Ok None) /\
          match v_out x with
          | [] => x3 = 0
          | c :: _ => exists rv rc, nth_error (h_ranks h0) v = Some rv /\ nth_error (h_ranks h0) c = Some rc /\
              x3 = 2 * N.of_nat (od - 1) + (if (rv + 1) mod two32 =? rc then 0 else 2)
          end).
  { rewrite Hjt. destruct (v_out x) as [|c r] eqn:Ev.
    - simpl in od. subst od. simpl in E2. injection E2 as <-. injection E3 as <-. split; [lia|]. auto.
    - assert (Hod: (0 < od)%nat) by (subst od; simpl; lia).
      destruct (Nat.eqb_spec od 0); [lia|].
      destruct x2 as [n0|].
      + assert (Hb: 2 <= n0 /\ n0 <= 257 + 512 * N.of_nat od).
        { apply (jt_size_bound g K v od n0 G); [rewrite Eo; reflexivity|exact Hod|lia|exact E2]. }
        assert (Hod4: (3 < od)%nat).
        { unfold calcJumpTableSize in E2. destruct (Nat.ltb_spec 3 od); auto. discriminate. }
        destruct (Nat.ltb_spec od 4); [lia|]. destruct (N.eqb_spec n0 0); [lia|]. simpl in E3.
        injection E3 as <-. split; [lia|]. auto.
      + rewrite orb_true_r in E3. inv_bind E3. inv_bind E3. injection E3 as <-.
        assert (Eod: od = S (length r)) by reflexivity. clearbody od.
        apply get_ok in E4, E5. rewrite I1 in E4, E5. split.
        * destruct ((x2 + 1) mod two32 =? x4); lia.
        * split; auto. exists x2, x4. split; [auto|split; [auto|]].
          destruct ((x2 + 1) mod two32 =? x4); lia. }
  destruct Hout as (Hob & Hout).
  assert (Hoth: (x3 + lab + mt + ck) mod two32 = x3 + lab + mt + ck) by (apply N.mod_small; lia).
  rewrite Hoth.
  set (s' := mkSn (h_guard h) x1 (x3 + lab + mt + ck) (sn_check x0) (match x2 with Some _ => true | None => sn_jt x0 end)) in *.
  assert (Esz: size_at (upd (h_snips h) v s') v = x1 + (x3 + lab + mt + ck)).
  { unfold size_at. rewrite nth_upd_same by auto. auto. }
  assert (Eold: forall u, In u done -> size_at (upd (h_snips h) v s') u = size_at (h_snips h) u).
  { intros u Hu. unfold size_at. rewrite nth_upd_other; auto. intros ->. contradiction. }
  assert (Hbv: x1 + (x3 + lab + mt + ck) <= bnd g v) by (unfold bnd; rewrite Eo; fold od; lia).
  assert (Htot: total (size_at (h_snips h)) done + bnd g v + 2 < two32).
  { assert (T: total (bnd g) (done ++ [v]) + 2 < two32) by (apply total_bound; auto).
    rewrite total_app in T. simpl in T.
    assert (total (size_at (h_snips h)) done <= total (bnd g) done) by (apply total_le; auto). lia. }
  assert (Eg: (h_guard h + x1 + (x3 + lab + mt + ck)) mod two32 = h_guard h + x1 + (x3 + lab + mt + ck)).
  { apply N.mod_small. rewrite I5. lia. }
  rewrite Eg.
  constructor; cbn [h_ranks h_snips h_guard h_num h_maxLabel h_maxCheck]; auto.
  - rewrite upd_length. auto.
  - rewrite total_app. simpl. rewrite Esz, (total_ext _ (size_at (h_snips h)) done); auto. rewrite I5. lia.
  - intros u Hu. apply in_app_or in Hu. destruct Hu as [Hu|[<-|[]]].
    + rewrite Eold; auto.
    + rewrite Esz. auto.
  - intros u Hu. apply in_app_or in Hu. destruct Hu as [Hu|[<-|[]]].
    + destruct (I7 u Hu) as (y & s & s0 & Y1 & Y2 & Y3 & Y4 & Y5 & Y6).
      exists y, s, s0. rewrite nth_upd_other by (intros ->; contradiction). repeat split; auto; try apply Y6.
      rewrite Y5. rewrite addr_old by auto. apply addr_ext. intros; symmetry; auto.
    + exists x, s', x0. rewrite nth_upd_same by auto. repeat split; auto.
      * simpl. rewrite addr_new by auto. rewrite I5. apply total_ext. intros; symmetry; auto.
      * simpl. destruct (v =? 0)%nat; [injection E1 as <-; auto|]. destruct (v_trans x) as [t|]; [|discriminate].
        injection E1 as <-. eauto.
      * exists x3. split; [reflexivity|]. exact Hout.
  - intros u Hu. rewrite nth_upd_other. { apply I8. intros Hi. apply Hu, in_or_app. auto. }
    intros ->. apply Hu, in_or_app. simpl. auto.
Qed.

Lemma finish_all_inv g K h0 order0 : good g K -> fits32 g -> disc_inv g h0 order0 ->
  forall order h done h1,
  (forall u, In u (done ++ order) -> (u < length g)%nat) -> NoDup (done ++ order) ->
  fin_inv g h0 h done -> finish_all g h order = Ok h1 -> fin_inv g h0 h1 (done ++ order).
Proof.
  intros G HF D. induction order as [|v order IH]; intros h done h1 Hlt Hnd I H; simpl in H.
  - injection H as <-. rewrite app_nil_r. auto.
  - inv_bind H. replace (done ++ v :: order) with ((done ++ [v]) ++ order) in * by (rewrite <- app_assoc; auto).
    eapply IH; eauto. eapply finish_vertex_inv; eauto.
    + intros u Hu. apply Hlt, in_or_app. auto.
    + clear -Hnd. induction (done ++ [v]) as [|a l IHl]; [constructor|]. inversion Hnd; subst. constructor; auto.
      intros Ha. apply H1, in_or_app. auto.
Qed.

Lemma fin_inv_new g h : length (h_snips h) = length g -> h_guard h = 0 -> fin_inv g h h [].
Proof. intros H1 H2. constructor; auto; try easy. Qed.

(** * The layout *)

Record layout (g : nfa) (h : helper) (order : list nat) : Prop := {
  ly_nodup : NoDup order;
  ly_hd : hd_error order = Some 0%nat;
  ly_all : forall v, In v order <-> (v < length g)%nat;
  ly_rank : forall k v, nth_error order k = Some v -> nth_error (h_ranks h) v = Some (N.of_nat k);
  ly_snip : forall v, (v < length g)%nat -> exists x s, nth_error g v = Some x /\ nth_error (h_snips h) v = Some s /\
     sn_start s = addr (size_at (h_snips h)) order v /\ snip_ok g (h_ranks h) v x s /\
     (sn_check s = NONE32 \/ sn_check s <= h_maxCheck h) /\
     ((length (v_in x) <= 1)%nat -> sn_check s = NONE32);
  ly_checks : forall v1 v2 s1 s2, nth_error (h_snips h) v1 = Some s1 -> nth_error (h_snips h) v2 = Some s2 ->
     sn_check s1 <> NONE32 -> sn_check s1 = sn_check s2 -> v1 = v2;
  ly_label : forall v x, nth_error g v = Some x -> v_label x <> NONE32 -> v_label x <= h_maxLabel h;
  ly_maxLabel : h_maxLabel h < NONE32;
  ly_maxCheck : h_maxCheck h <= N.of_nat (length g);
  ly_guard : h_guard h = total (size_at (h_snips h)) order;
  ly_bound : h_guard h + 2 < two32;
  ly_len : N.of_nat (length g) + 1 < two32;
  ly_slen : length (h_snips h) = length g
}.

Lemma fits32_length g : fits32 g -> 271 * N.of_nat (length g) + 2 < two32.
Proof.
  unfold fits32. enough (271 * N.of_nat (length g) + 2 <= size_bound g) by lia.
  unfold size_bound. induction g as [|x g IH]; simpl length; cbn [fold_right]; lia.
Qed.

Lemma NoDup_lt_length l n : NoDup l -> (forall v, In v l -> (v < n)%nat) -> (length l <= n)%nat.
Proof.
  intros Hn Hl. rewrite <- (seq_length n 0). apply NoDup_incl_length; auto.
  intros v Hv. apply in_seq. specialize (Hl v Hv). lia.
Qed.

Lemma specialVisit_layout fuel g K h order : good g K -> fits32 g ->
  specialVisit fuel g = Ok (h, order) -> layout g h order.
Proof.
  intros G HF H. unfold specialVisit in H. inv_bind H. inv_bind H. destruct x0 as [h0 ord]. inv_bind H.
  injection H as -> ->. apply inv_set_at in E. destruct E as (Hlen & ->). rewrite repeat_length in Hlen.
  set (disc := upd (repeat false (length g)) 0 true) in *.
  assert (Hd0: nth_error disc 0 = Some true) by (apply nth_upd_same; rewrite repeat_length; auto).
  assert (Hdv: forall v, v <> 0%nat -> nth_error disc v = Some true -> False).
  { intros v Hv Hd. unfold disc in Hd. rewrite nth_upd_other in Hd by auto. apply nth_error_repeat in Hd. discriminate. }
  assert (Hq: forall v, In v [0%nat] -> nth_error disc v = Some true) by (intros v [<-|[]]; auto).
  destruct (visit_ok _ _ _ _ _ _ _ E0) as (V1 & V2 & V3 & V4 & V5 & V6); auto.
  { constructor; [easy|constructor]. }
  assert (Hin0: In 0%nat order) by (apply V4; left; auto).
  assert (Hall: forall v, In v order <-> (v < length g)%nat).
  { intros v. split.
    - intros Hv. assert (Hx: (v < length disc)%nat).
      { apply nth_error_Some. destruct (V3 v Hv) as [[<-|[]]|Hf]; congruence. }
      unfold disc in Hx. rewrite upd_length, repeat_length in Hx. auto.
    - intros Hv. apply (gd_reach _ _ G) in Hv. induction Hv; auto.
      destruct (V5 v c IHHv H) as [Hc|Hc]; auto.
      destruct (Nat.eq_dec c 0) as [->|Hc0]; auto. exfalso. eauto. }
  assert (Hlen2: N.of_nat (length order) <= N.of_nat (length g)).
  { assert (length order <= length g)%nat; [|lia]. apply NoDup_lt_length; auto. intros v Hv. apply Hall; auto. }
  assert (Hfl := fits32_length g HF).
  assert (D: disc_inv g h0 ([] ++ order)).
  { eapply discover_all_inv; eauto using disc_inv_new.
    - intros v x Hx. apply (gd_label _ _ G v x Hx).
    - simpl. unfold two32, NONE32 in *. lia. }
  simpl in D.
  assert (I: fin_inv g h0 h ([] ++ order)).
  { eapply finish_all_inv; eauto.
    - simpl. intros u Hu. apply Hall; auto.
    - apply fin_inv_new; [apply (di_len2 _ _ _ D)|apply (di_guard _ _ _ D)]. }
  simpl in I.
  constructor.
  - auto.
  - auto.
  - auto.
  - intros k v Hk. rewrite (fi_ranks _ _ _ _ I). apply (di_rank _ _ _ D); auto.
  - intros v Hv. apply Hall in Hv.
    destruct (fi_done _ _ _ _ I v Hv) as (y & s & s0 & Y1 & Y2 & Y3 & Y4 & Y5 & Y6).
    exists y, s. rewrite (fi_ranks _ _ _ _ I), (fi_maxCheck _ _ _ _ I), Y4.
    destruct (di_snip _ _ _ D v s0 Y3) as (_ & _ & Z).
    repeat split; auto; try apply Y6.
    + destruct Z as [Z|(_ & _ & Z)]; auto.
    + intros Hi. eapply (di_check1 _ _ _ D); eauto.
  - intros v1 v2 s1 s2 H1 H2 H3 H4.
    assert (L1: (v1 < length g)%nat). { rewrite <- (fi_len _ _ _ _ I). apply nth_error_Some. congruence. }
    assert (L2: (v2 < length g)%nat). { rewrite <- (fi_len _ _ _ _ I). apply nth_error_Some. congruence. }
    destruct (fi_done _ _ _ _ I v1) as (y1 & s1' & s01 & _ & Y2 & Y3 & Y4 & _); [apply Hall; auto|].
    destruct (fi_done _ _ _ _ I v2) as (y2 & s2' & s02 & _ & Z2 & Z3 & Z4 & _); [apply Hall; auto|].
    eapply (di_checks _ _ _ D v1 v2 s01 s02); auto; congruence.
  - intros v x Hx. rewrite (fi_maxLabel _ _ _ _ I). apply (di_label _ _ _ D v x); auto.
    apply Hall. apply nth_error_Some. congruence.
  - rewrite (fi_maxLabel _ _ _ _ I). apply (di_maxLabel _ _ _ D).
  - rewrite (fi_maxCheck _ _ _ _ I). pose proof (di_maxCheck _ _ _ D). lia.
  - apply (fi_guard _ _ _ _ I).
  - rewrite (fi_guard _ _ _ _ I).
    assert (T: total (bnd g) order + 2 < two32). { apply total_bound; auto. intros v Hv. apply Hall; auto. }
    assert (total (size_at (h_snips h)) order <= total (bnd g) order) by (apply total_le; apply (fi_bound _ _ _ _ I)). lia.
  - lia.
  - apply (fi_len _ _ _ _ I).
Qed.
