(** Where hits start, for arbitrary programs: threads are created only for positions of
    buffers given to a search, and a hit starts where its thread was created. *)
From Verif Require Import Base VmModel VmSpec VmIdeal VmSim VmSearch VmGeneric.
Open Scope N_scope.

Section Starts.
Variable S : N -> Prop.
Variable base : list hit.

Definition tin (t : thread) : Prop := S (t_start t).
Definition sok (st : vmst) : Prop :=
  Forall tin (s_next st) /\ exists hs, s_hits st = base ++ hs /\ Forall (fun h => S (h_start h)) hs.

Lemma sok_eq st st' : s_next st' = s_next st -> s_hits st' = s_hits st -> sok st -> sok st'.
Proof. unfold sok. intros -> ->. auto. Qed.

Lemma sok_push P st t st' : push_next P st t = Ok st' -> tin t -> sok st -> sok st'.
Proof.
  unfold push_next. intros H Ht (HN & HH). inv_bind H. injection H as <-.
  assert (E1: s_next x = s_next st /\ s_hits x = s_hits st).
  { unfold markLive in E. destruct (_ =? _); [injection E as <-; auto|]. inv_bind E. destruct x0; injection E as <-; auto. }
  destruct E1 as (E1 & E2). split; simpl.
  - rewrite E1. apply Forall_app. auto.
  - rewrite E2. auto.
Qed.

Lemma sok_emit st h : S (h_start h) -> sok st -> sok (emit st h).
Proof.
  intros Hs (HN & hs & E & HH). unfold emit. destruct (s_cb st).
  - split; simpl; auto. exists (hs ++ [h]). rewrite E, app_assoc. split; auto. apply Forall_app. auto.
  - split; eauto.
Qed.

Lemma kill_label_in P l R : Forall tin R -> Forall tin (kill_label P l R).
Proof. unfold kill_label. intros H. apply Forall_map. eapply Forall_impl; [|exact H]. intros t Ht. destruct (_ =? _); auto. Qed.

Lemma kill_same_in P l s R : Forall tin R -> Forall tin (kill_same_start P l s R).
Proof.
  induction 1; simpl; auto. destruct (_ =? _); auto. constructor; auto. destruct (_ =? _); auto.
Qed.

Definition post3 (x : vmst * list thread * option thread) : Prop :=
  sok (fst (fst x)) /\ Forall tin (snd (fst x)) /\ (forall t, snd x = Some t -> tin t).

Lemma sok_finish P st R t off x : exec_finish P st R t off = Ok x -> tin t -> Forall tin R -> sok st -> post3 x.
Proof.
  unfold exec_finish. intros H Ht HR HS.
  assert (HR': Forall tin (if t_end t =? off then if t_lead t then kill_label P (t_label t) R
     else kill_same_start P (t_label t) (t_start t) R else R)).
  { destruct (_ =? _); auto. destruct (t_lead t); auto using kill_label_in, kill_same_in. }
  inv_bind H. destruct x0. { injection H as <-. split; auto. split; auto. intros t0 [= <-]. auto. }
  inv_bind H. destruct (_ <=? _).
  - inv_bind H. injection H as <-. split; [|split; auto; discriminate].
    apply sok_emit; auto.
  - injection H as <-. split; auto. split; auto. discriminate.
Qed.

Lemma sok_loop P off : forall f st R t x, ep_loop f P st R t off = Ok x -> tin t -> Forall tin R -> sok st -> post3 x.
Proof.
  induction f as [|f IH]; intros st R t x H Ht HR HS; [discriminate|]. simpl in H. inv_bind H.
  assert (Some_t: forall r, Ok (st, R, Some t) = Ok r -> post3 r).
  { intros r [= <-]. split; auto. split; auto. intros t0 [= <-]. auto. }
  assert (None_t: forall r, Ok (st, R, @None thread) = Ok r -> post3 r).
  { intros r [= <-]. split; auto. split; auto. discriminate. }
  destruct (w_op x0); auto.
  - eapply sok_finish; eauto.
  - inv_bind H. inv_bind H. destruct x2 as [[s1 R1] oc]. inv_bind H. inv_bind H.
    assert (X: post3 (s1, R1, oc)).
    { destruct x1; [apply None_t; auto|]. eapply IH; eauto; exact Ht. }
    destruct X as (X1 & X2 & X3). simpl in *.
    eapply IH; [exact H|exact Ht|auto|].
    destruct oc; [eapply sok_push; eauto|injection E2 as <-; auto].
  - inv_bind H. eapply IH; eauto; exact Ht.
  - inv_bind H. destruct x1; auto. inv_bind H. eapply IH; [exact H|exact Ht|auto|].
    destruct x1; auto.
  - inv_bind H. destruct (_ <=? _); auto. eapply IH; eauto; exact Ht.
  - inv_bind H. eapply IH; eauto; exact Ht.
Qed.

Lemma sok_thread f P st R t b off st' R' : exec_thread f P st R t b off = Ok (st', R') ->
  tin t -> Forall tin R -> sok st -> sok st' /\ Forall tin R'.
Proof.
  unfold exec_thread. intros H Ht HR HS. inv_bind H. destruct x as [t1|]; [|injection H as <- <-; auto].
  assert (Ht1: tin t1).
  { unfold exec_byte in E. inv_bind E.
    destruct (w_op x); try (injection E as <-; auto; fail); try discriminate;
      repeat match goal with
      | H : bind _ _ = _ |- _ => inv_bind H
      | H : (if ?c then _ else _) = _ |- _ => destruct c
      | H : Ok (Some _) = Ok (Some _) |- _ => injection H as <-; exact Ht
      | H : Ok None = Ok (Some _) |- _ => discriminate
      end. }
  inv_bind H. destruct x as [[s1 R1] o].
  assert (X: post3 (s1, R1, o)).
  { unfold ep_seq in E0. inv_bind E0. destruct x.
    - injection E0 as <- <- <-. split; auto. split; auto. discriminate.
    - eapply sok_loop; eauto. }
  destruct X as (X1 & X2 & X3). simpl in *. destruct o as [t2|]; [|injection H as <- <-; auto].
  inv_bind H. injection H as <- <-. split; auto. eapply sok_push; eauto.
Qed.

Lemma sok_list f P b off : forall n L st st', run_list n f P st L b off = Ok st' -> Forall tin L -> sok st -> sok st'.
Proof.
  induction n as [|n IH]; intros [|t L] st st' H HL HS; simpl in H; try discriminate; try (injection H as <-; auto; fail).
  inv_bind H. destruct x as [s1 R1]. inversion HL; subst. eapply sok_thread in E; eauto. destruct E. eauto.
Qed.

Definition sok2 (st : vmst) : Prop := sok st /\ Forall tin (s_active st).

Lemma active_push P st t st' : push_next P st t = Ok st' -> s_active st' = s_active st.
Proof.
  unfold push_next. intros H. inv_bind H. injection H as <-. simpl.
  unfold markLive in E. destruct (_ =? _); [injection E as <-; auto|]. inv_bind E. destruct x0; injection E as <-; auto.
Qed.

Lemma active_emit st h : s_active (emit st h) = s_active st.
Proof. unfold emit. destruct (s_cb st); auto. Qed.

Lemma cleanup_sok st : sok st -> sok2 (cleanup st).
Proof. intros (HN & HH). split; [split; auto; constructor|]. simpl. auto. Qed.

Lemma sok_resolve f P b off : forall n L st had st' h', run_resolve n f P st L b off had = Ok (st', h') ->
  Forall tin L -> sok st -> sok st'.
Proof.
  induction n as [|n IH]; intros [|t L] st had st' h' H HL HS; simpl in H; try discriminate; try (injection H as <-; auto; fail).
  inv_bind H. inv_bind H. destruct x0 as [s1 R1]. inversion HL; subst. eapply sok_thread in E0; eauto. destruct E0. eauto.
Qed.

Lemma sok_resolve_loop f P : forall buf st off had st' o, resolve_loop f P st buf off had = Ok (st', o) ->
  sok2 st -> sok2 st'.
Proof.
  induction buf as [|b buf IH]; intros st off had st' o H HS; cbn [resolve_loop] in H.
  - injection H as <- _. auto.
  - destruct (s_active st) eqn:EA; [injection H as <- _; auto|]. rewrite <- EA in H.
    destruct had; [|injection H as <- _; auto]. inv_bind H. destruct x as [s1 h1].
    eapply IH; eauto. apply cleanup_sok. destruct HS. eapply sok_resolve; eauto.
Qed.

Lemma sok_close P : forall L st st', close_loop P st L = Ok st' -> Forall tin L -> sok2 st -> sok2 st'.
Proof.
  induction L as [|t L IH]; intros st st' H HL HS; simpl in H.
  - injection H as <-. auto.
  - inversion HL; subst. inv_bind H. destruct (w_op x); eauto. inv_bind H.
    destruct (_ <=? _); eauto. inv_bind H. eapply IH; eauto. destruct HS as (H1 & H4). split.
    + apply sok_emit; auto.
    + rewrite active_emit. auto.
Qed.

Lemma with_cb_sok st cb : sok2 st -> sok2 (with_cb st cb).
Proof. auto. Qed.

Lemma sok_search_loop f P first : forall buf st off st' o, search_loop f P first st buf off = Ok (st', o) ->
  (forall i, (i < length buf)%nat -> S ((off + N.of_nat i) mod two64)) -> off < two64 -> sok2 st -> sok2 st'.
Proof.
  induction buf as [|b buf IH]; intros st off st' o H HO Ho HS; cbn [search_loop] in H.
  - injection H as <- _. auto.
  - inv_bind H. inv_bind H. eapply IH; eauto.
    + intros i Hi. specialize (HO (Datatypes.S i) ltac:(simpl; lia)).
      replace (((off + 1) mod two64 + N.of_nat i) mod two64) with ((off + N.of_nat (Datatypes.S i)) mod two64); auto.
      rewrite N.add_mod_idemp_l by discriminate. f_equal. lia.
    + apply N.mod_lt. discriminate.
    + apply cleanup_sok. unfold exec_frame, run_threads in E0. inv_bind E0. destruct HS as (HS1 & HS2).
      assert (sok x1) by (eapply sok_list; eauto).
      destruct x; [|injection E0 as <-; auto]. eapply sok_list; eauto.
      unfold new_threads. apply Forall_map. apply Forall_forall. intros pc _. unfold tin. simpl.
      specialize (HO 0%nat ltac:(simpl; lia)). rewrite N.add_0_r, N.mod_small in HO; auto.
Qed.

Lemma sok_starts_loop f P : forall buf st off st', starts_loop f P st buf off = Ok st' -> sok2 st -> sok2 st'.
Proof.
  induction buf as [|b buf IH]; intros st off st' H HS; cbn [starts_loop] in H.
  - injection H as <-. auto.
  - inv_bind H. assert (HC: sok2 (cleanup x)).
    { apply cleanup_sok. destruct HS. unfold run_threads in E. eapply sok_list; eauto. }
    destruct (s_active (cleanup x)); [injection H as <-; auto|]. eauto.
Qed.

(** What a call allows as start of a hit. *)
Definition call_starts (c : call) : Prop :=
  match c with
  | CSearch b s _ => s < two64 /\ forall i, (i < length b)%nat -> S ((s + N.of_nat i) mod two64)
  | CStarts _ s _ => S s
  | _ => True
  end.

Lemma sok_call f P first st c st' v : vm_call f P first st c = Ok (st', v) -> call_starts c -> sok2 st -> sok2 st'.
Proof.
  intros H Hc HS. destruct c; simpl in H, Hc.
  - unfold search in H. inv_bind H. destruct x as [s1 o]. inv_bind H. injection H as <- _.
    destruct Hc. eapply sok_search_loop; eauto.
  - unfold search_resolve in H. inv_bind H. destruct x as [s1 o]. inv_bind H. injection H as <- _.
    eapply sok_resolve_loop; eauto.
  - inv_bind H. injection H as <- _. unfold close_out in E. destruct cb; [|injection E as <-; auto].
    eapply sok_close; eauto. destruct HS. auto.
  - inv_bind H. injection H as <- _. unfold starts_with in E. inv_bind E.
    destruct x0; [|injection E as <-; auto]. inv_bind E. inv_bind E. injection E as <-.
    assert (HS2: sok2 x0).
    { eapply sok_starts_loop; eauto. destruct HS as (A & B). split; auto. simpl. apply Forall_app. split; auto.
      unfold new_threads. apply Forall_map. apply Forall_forall. intros pc _. exact Hc. }
    assert (HS3: sok2 x1).
    { unfold close_out in E2. destruct cb; [|injection E2 as <-; auto]. eapply sok_close; eauto. destruct HS2; auto. }
    destruct HS3 as ((A & B) & C). split; [split; auto; constructor|constructor].
  - injection H as <- _. destruct HS as ((A & B) & C). split; [split; auto; constructor|constructor].
Qed.

Lemma sok_calls f P first : forall cs st st' vs, vm_calls f P first st cs = Ok (st', vs) ->
  Forall call_starts cs -> sok2 st -> sok2 st'.
Proof.
  induction cs as [|c cs IH]; intros st st' vs H HC HS; simpl in H.
  - injection H as <- _. auto.
  - inversion HC; subst. inv_bind H. destruct x as [s1 v]. inv_bind H. destruct x as [s2 vs2]. injection H as <- _.
    eapply IH; eauto. eapply sok_call; eauto.
Qed.
End Starts.
