From Verif Require Import Base SparseSetModel.
Open Scope N_scope.

(** Representation invariant: [els] are the members in insertion order. *)
Record rep (s : sset) (els : list N) : Prop := {
  r_len : length s.(data) = (2 * N.to_nat s.(maxp))%nat;
  r_max : 2 * s.(maxp) < two32;
  r_end : s.(endp) = s.(maxp) + N.of_nat (length els);
  r_nodup : NoDup els;
  r_els : Forall (fun e => e < s.(maxp)) els;
  r_dense : forall i, (i < length els)%nat ->
     nth_error s.(data) (N.to_nat s.(maxp) + i) = nth_error els i;
  r_index : forall i e, nth_error els i = Some e ->
     nth_error s.(data) (N.to_nat e) = Some (N.of_nat i);
  r_low : forall e d, e < s.(maxp) -> nth_error s.(data) (N.to_nat e) = Some d -> d < s.(maxp)
}.

Lemma resize_rep g m :
  length g = (2 * N.to_nat m)%nat -> 2 * m < two32 -> rep (ss_resize g m) [].
Proof.
  intros Hg Hm. constructor; simpl; auto; try lia; try constructor.
  - rewrite app_length, repeat_length, skipn_length. lia.
  - intros i e H; destruct i; discriminate.
  - intros e d He H.
    rewrite nth_error_app1 in H by (rewrite repeat_length; lia).
    apply nth_error_In in H. apply repeat_spec in H. lia.
Qed.

Lemma clear_rep s els : rep s els -> rep (ss_clear s) [].
Proof.
  intros [H1 H2 H3 H4 H5 H6 H7 H8]; constructor; simpl; auto; try lia; try constructor.
  intros i e H; destruct i; discriminate.
Qed.

Lemma nodup_bound (els : list N) m : NoDup els -> Forall (fun e => e < m) els ->
  (length els <= N.to_nat m)%nat.
Proof.
  intros Hn Hf.
  assert (Hi : incl els (map N.of_nat (seq 0 (N.to_nat m)))).
  { intros e He. rewrite Forall_forall in Hf. apply Hf in He.
    apply in_map_iff. exists (N.to_nat e). split; [lia|]. apply in_seq; lia. }
  apply NoDup_incl_length in Hi; auto. rewrite map_length, seq_length in Hi. lia.
Qed.

Lemma find_rep s els e : rep s els -> e < s.(maxp) ->
  exists b, ss_find s e = Ok b /\ (b = true <-> In e els).
Proof.
  intros [Hlen Hmax Hend Hnd Hels Hdense Hidx Hlow] He.
  unfold ss_find.
  destruct (get_lt s.(data) (N.to_nat e)) as [d Hd]; [lia|].
  rewrite Hd; simpl. apply get_ok in Hd.
  assert (Hd' := Hlow _ _ He Hd).
  pose proof (nodup_bound _ _ Hnd Hels) as Hb.
  rewrite N.mod_small by (unfold two32 in *; lia).
  destruct (N.ltb_spec (d + s.(maxp)) s.(endp)) as [Hlt|Hge].
  - assert (Hdl : (N.to_nat d < length els)%nat) by lia.
    specialize (Hdense _ Hdl).
    replace (N.to_nat (d + s.(maxp))) with (N.to_nat s.(maxp) + N.to_nat d)%nat by lia.
    unfold get. rewrite Hdense.
    destruct (nth_error els (N.to_nat d)) as [x|] eqn:Ex.
    2:{ apply nth_error_None in Ex; lia. }
    simpl. exists (x =? e). split; [reflexivity|].
    rewrite N.eqb_eq. split.
    + intros ->. eapply nth_error_In; eauto.
    + intros Hin. apply In_nth_error in Hin. destruct Hin as [i Hi].
      pose proof (Hidx _ _ Hi) as Hi2. rewrite Hd in Hi2. injection Hi2 as Hi2.
      subst d. rewrite Nat2N.id in Ex. congruence.
  - exists false. split; [reflexivity|]. split; [discriminate|].
    intros Hin. apply In_nth_error in Hin. destruct Hin as [i Hi].
    pose proof (Hidx _ _ Hi) as Hi2. rewrite Hd in Hi2. injection Hi2 as Hi2.
    assert (i < length els)%nat by (apply nth_error_Some; congruence). lia.
Qed.

Lemma insert_rep s els e : rep s els -> e < s.(maxp) -> ~ In e els ->
  exists s', ss_insert s e = Ok s' /\ rep s' (els ++ [e]) /\ maxp s' = maxp s.
Proof.
  intros [Hlen Hmax Hend Hnd Hels Hdense Hidx Hlow] He Hni.
  assert (Hb : (length (e :: els) <= N.to_nat s.(maxp))%nat).
  { apply nodup_bound; constructor; auto. }
  simpl in Hb.
  unfold ss_insert, set_at.
  replace (N.to_nat s.(endp) <? length s.(data))%nat with true by lia.
  simpl. rewrite upd_length.
  replace (N.to_nat e <? length s.(data))%nat with true by lia.
  simpl. eexists. split; [reflexivity|]. split; [|reflexivity].
  assert (Hsz : (s.(endp) + two32 - s.(maxp)) mod two32 = N.of_nat (length els)).
  { rewrite Hend. unfold two32 in *.
    replace (maxp s + N.of_nat (length els) + 4294967296 - maxp s)
      with (N.of_nat (length els) + 1 * 4294967296) by lia.
    rewrite N.mod_add by lia. apply N.mod_small. lia. }
  rewrite Hsz.
  constructor; simpl.
  - rewrite !upd_length. auto.
  - auto.
  - rewrite app_length; simpl. rewrite N.mod_small by (unfold two32 in *; lia). lia.
  - rewrite NoDup_app_iff || idtac.
    apply NoDup_rev in Hnd. rewrite <- (rev_involutive (els ++ [e])).
    apply NoDup_rev. rewrite rev_app_distr; simpl. constructor; auto.
    rewrite <- in_rev. auto.
  - apply Forall_app; split; auto.
  - intros i Hi. rewrite app_length in Hi; simpl in Hi.
    rewrite nth_upd_other by lia.
    destruct (Nat.eq_dec i (length els)) as [->|Hne].
    + replace (N.to_nat (maxp s) + length els)%nat with (N.to_nat (endp s)) by lia.
      rewrite nth_upd_same by lia.
      rewrite nth_error_app2, Nat.sub_diag by lia. reflexivity.
    + rewrite nth_upd_other by lia. rewrite nth_error_app1 by lia. apply Hdense; lia.
  - intros i x Hx.
    destruct (Nat.lt_ge_cases i (length els)) as [Hl|Hl].
    + rewrite nth_error_app1 in Hx by auto.
      assert (x <> e) by (intros ->; apply Hni; eapply nth_error_In; eauto).
      assert (x < s.(maxp)) by (rewrite Forall_forall in Hels; apply Hels; eapply nth_error_In; eauto).
      rewrite nth_upd_other by lia. rewrite nth_upd_other by lia. auto.
    + rewrite nth_error_app2 in Hx by auto.
      destruct (i - length els)%nat eqn:Ei; simpl in Hx; [|destruct n; discriminate].
      injection Hx as <-. rewrite nth_upd_same by (rewrite upd_length; lia). f_equal. lia.
  - intros x d Hx Hd.
    destruct (N.eq_dec x e) as [->|Hne].
    + rewrite nth_upd_same in Hd by (rewrite upd_length; lia). injection Hd as <-. lia.
    + rewrite nth_upd_other in Hd by lia. rewrite nth_upd_other in Hd by lia. eauto.
Qed.

Lemma add_rep s els e : rep s els -> e < s.(maxp) ->
  exists s' els', ss_add s e = Ok s' /\ rep s' els' /\ maxp s' = maxp s /\
     (forall x, In x els' <-> x = e \/ In x els).
Proof.
  intros Hr He. unfold ss_add.
  destruct (find_rep _ _ _ Hr He) as (b & Hb & Hbi). rewrite Hb; simpl.
  destruct b.
  - exists s, els. split; [reflexivity|]. split; [exact Hr|]. split; [reflexivity|].
    intros x; split; auto. intros [->|]; auto. apply Hbi; auto.
  - destruct (insert_rep _ _ _ Hr He) as (s' & Hs & Hr' & Hm).
    { intros Hin; apply Hbi in Hin; discriminate. }
    exists s', (els ++ [e]). split; [exact Hs|]. split; [exact Hr'|]. split; [exact Hm|].
    intros x; split.
    + intros Hx%in_app_iff. simpl in Hx. intuition.
    + intros [->|Hx]; apply in_app_iff; simpl; auto.
Qed.

Lemma run_rep s els l : rep s els ->
  Forall (fun o => match o with SAdd e => e < s.(maxp) | SClear => True end) l ->
  exists s' els', ss_run s l = Ok s' /\ rep s' els' /\ maxp s' = maxp s /\
    (forall x, In x els' <-> In x (since_clear l els)).
Proof.
  revert s els. induction l as [|o l IH]; intros s els Hr Hf.
  - exists s, els. split; [reflexivity|]. split; [exact Hr|]. split; [reflexivity|].
    intros x; reflexivity.
  - inversion_clear Hf. destruct o as [e|]; simpl.
    + destruct (add_rep s els e Hr H) as (s1 & els1 & -> & Hr1 & Hm1 & Hin1). simpl.
      destruct (IH s1 els1 Hr1) as (s2 & els2 & Hs2 & Hr2 & Hm2 & Hin2).
      { rewrite Hm1. exact H0. }
      exists s2, els2. split; [exact Hs2|]. split; [exact Hr2|]. split; [congruence|].
      intros x; split.
      * intros Hx. apply Hin2 in Hx. clear -Hx Hin1.
        assert (G : forall l a b, (forall y, In y a -> In y b) -> In x (since_clear l a) -> In x (since_clear l b)).
        { induction l0 as [|[y|] l0 IHl]; simpl; intros a b Hab; auto.
          apply IHl. simpl. intuition. }
        eapply G; [|exact Hx]. intros y Hy. simpl. apply Hin1 in Hy. intuition.
      * intros Hx. apply Hin2. clear -Hx Hin1.
        assert (G : forall l a b, (forall y, In y a -> In y b) -> In x (since_clear l a) -> In x (since_clear l b)).
        { induction l0 as [|[y|] l0 IHl]; simpl; intros a b Hab; auto.
          apply IHl. simpl. intuition. }
        eapply G; [|exact Hx]. intros y Hy. simpl in Hy. apply Hin1. intuition.
    + destruct (IH (ss_clear s) []) as (s2 & els2 & Hs2 & Hr2 & Hm2 & Hin2).
      { eapply clear_rep; eauto. } { exact H0. }
      exists s2, els2. split; [exact Hs2|]. split; [exact Hr2|]. split; [exact Hm2|]. exact Hin2.
Qed.
