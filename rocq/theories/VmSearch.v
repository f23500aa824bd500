(** From single threads to frames, buffers and sessions. *)
From Verif Require Import Base VmModel VmSpec VmIdeal VmSim.
From Coq Require Import Sorting.Sorted.
Open Scope N_scope.

Definition srt (L : list thread) : Prop := StronglySorted N.le (map t_start L).

Lemma ss_app (l1 l2 : list N) : StronglySorted N.le (l1 ++ l2) <->
  StronglySorted N.le l1 /\ StronglySorted N.le l2 /\ (forall x y, In x l1 -> In y l2 -> x <= y).
Proof.
  induction l1 as [|a l1 IH]; simpl.
  - split; [intros H; split; [constructor|split; [auto|intros ? ? []]]|tauto].
  - split.
    + intros H. inversion H; subst. apply IH in H2. destruct H2 as (S1 & S2 & S3).
      rewrite Forall_app in H3. destruct H3 as (F1 & F2).
      split; [constructor; auto|]. split; auto. intros x y [<-|Hx] Hy; auto.
      rewrite Forall_forall in F2; auto.
    + intros (S1 & S2 & S3). inversion S1; subst. constructor.
      * apply IH. repeat split; auto.
      * apply Forall_app. split; auto. apply Forall_forall. auto.
Qed.

Lemma srt_app L1 L2 : srt (L1 ++ L2) <-> srt L1 /\ srt L2 /\
  (forall x y, In x L1 -> In y L2 -> t_start x <= t_start y).
Proof.
  unfold srt. rewrite map_app, ss_app. split; intros (H1 & H2 & H3); repeat split; auto.
  - intros x y Hx Hy. apply H3; apply in_map; auto.
  - intros x y Hx Hy. apply in_map_iff in Hx, Hy. destruct Hx as (x' & <- & ?), Hy as (y' & <- & ?). auto.
Qed.

Lemma srt_same s D : Forall (fun p => t_start p = s) D -> srt D.
Proof.
  induction 1; [constructor|]. unfold srt. simpl. constructor; auto.
  apply Forall_forall. intros y Hy. apply in_map_iff in Hy. destruct Hy as (p & <- & Hp).
  rewrite Forall_forall in H0. rewrite (H0 p Hp). lia.
Qed.

Lemma srt_step N0 t D R R' : srt (N0 ++ t :: R) -> Forall (fun p => t_start p = t_start t) D ->
  map t_start R' = map t_start R -> srt ((N0 ++ D) ++ R').
Proof.
  intros H HD HR. rewrite Forall_forall in HD.
  apply srt_app in H. destruct H as (S1 & S2 & S3).
  change (t :: R) with ([t] ++ R) in S2. apply srt_app in S2. destruct S2 as (_ & S4 & S5).
  rewrite <- app_assoc. apply srt_app. split; auto.
  assert (HR': srt R') by (unfold srt; rewrite HR; auto).
  assert (In' : forall y, In y R' -> exists z, In z R /\ t_start z = t_start y).
  { intros y Hy. assert (In (t_start y) (map t_start R)) as Hin by (rewrite <- HR; apply in_map; auto).
    apply in_map_iff in Hin. destruct Hin as (z & E & Hz). eauto. }
  split.
  - apply srt_app. split; [apply (srt_same (t_start t)), Forall_forall; auto|]. split; auto.
    intros x y Hx Hy. rewrite (HD x Hx). destruct (In' y Hy) as (z & Hz & <-). apply S5; auto. left; auto.
  - intros x y Hx Hy. apply in_app_iff in Hy. destruct Hy as [Hy|Hy].
    + rewrite (HD y Hy). apply S3; auto. left; auto.
    + destruct (In' y Hy) as (z & Hz & <-). apply S3; auto. right; auto.
Qed.

Section Search.
Variables (P : program) (A : nat -> option ann) (F : nat).
Hypothesis (W : wf P A F).
Variable fuel : nat.
Hypothesis (Hfuel : (F <= fuel)%nat).

Lemma killed_starts R R' : Forall2 (killed P) R R' -> map t_start R' = map t_start R.
Proof. induction 1; simpl; auto. rewrite IHForall2. destruct H as [->| ->]; auto. Qed.

Lemma killed_length R R' : Forall2 (killed P) R R' -> length R' = length R.
Proof. intros H. apply killed_starts in H. rewrite <- (map_length t_start R'), H, map_length. auto. Qed.

Section Frame.
Variables (off b : N) (w : list N).
Hypothesis (Hoff : off + 1 < two64) (Hb : b < 256) (Hw : bytes w).

Notation Fn := (Fn P F off w).
Notation Fr := (Fr P F off b w).
Notation tokr := (tokr P A off).
Notation Inv := (Inv P A off).
Notation Cov := (Cov P A F off w).

Arguments VmSim.Fn : simpl never.
Arguments VmSim.Fr : simpl never.

Record spost (T : list thread) (st : vmst) (R : list thread) (st' : vmst) (R' : list thread) : Prop := {
  sp_inv : Inv st';
  sp_active : s_active st' = s_active st;
  sp_R : Forall tokr R';
  sp_len : length R' = length R;
  sp_checks : forall c, In c (s_checks st') -> Cov st' c;
  sp_srt : srt (s_next st ++ T ++ R) -> srt (s_next st' ++ R');
  sp_hits : exists hs, s_hits st' = s_hits st ++ hs /\
     forall l X, lists_ok X ->
      greedy (me st l) (Fn l (s_next st) ++ Fr l (T ++ R) ++ X) =
      hits_of l hs ++ greedy (me st' l) (Fn l (s_next st') ++ Fr l R' ++ X)
}.

Lemma spost_dead t st R : Inv st -> Forall tokr R -> tokr t ->
  (forall c, In c (s_checks st) -> Cov st c) ->
  (forall l X, greedy (me st l) (Fn l (s_next st) ++ fut F P l (b :: w) off t ++ X) =
               greedy (me st l) (Fn l (s_next st) ++ X)) ->
  spost [t] st R st R.
Proof.
  intros I HR Ht HC HG. constructor; auto.
  - intros H. rewrite <- (app_nil_r (s_next st)). eapply (srt_step _ t []); eauto.
  - exists []. rewrite app_nil_r. split; auto. intros l X HX. simpl.
    rewrite Fr_cons, <- app_assoc. apply HG.
Qed.

Lemma thread_ok st R t : Inv st -> Forall tokr R -> tokr t ->
  (forall c, In c (s_checks st) -> Cov st c) ->
  exists st' R', exec_thread fuel P st R t b off = Ok (st', R') /\ spost [t] st R st' R'.
Proof.
  intros I HR Ht HC. pose proof Ht as (Hs & Ht').
  unfold exec_thread.
  destruct (is_halt P (t_pc t)) eqn:Hh.
  { rewrite exec_byte_halt by auto. simpl. exists st, R. split; auto.
    apply spost_dead; auto. intros. rewrite fut_halt by auto. auto. }
  destruct Ht' as [?|(Harr & Hf)]; [congruence|].
  assert (Hlab: lab_ok P (t_label t)) by (eapply arrive_lab_ok; eauto).
  (* after the byte: [t1] with its expansion *)
  assert (Hcase: exec_byte P t b = Ok None /\ (forall l, fut F P l (b :: w) off t = []) \/
     exists t1 m a, exec_byte P t b = Ok (Some t1) /\ t_start t1 = t_start t /\ t_label t1 = t_label t /\
       arrive P A (t_label t1) m (t_pc t1) /\ A (t_pc t1) = Some a /\
       ((is_fin P (t_pc t1) = true /\ t1 = t /\ forall l, fut F P l (b :: w) off t = fut F P l w (off+1) t1) \/
        (m = false /\ forall l, fut F P l (b :: w) off t = flat_map (fut F P l w (off + 1)) (ileaves F P t1 off)))).
  { destruct (is_fin P (t_pc t)) eqn:Hfin.
    - right. pose proof Harr as (a & Ha & _). exists t, true, a.
      rewrite exec_byte_fin by auto. repeat split; auto. left. repeat split; auto.
      intros l. rewrite !fut_fin; auto.
    - destruct (exec_byte_ok P A F W t true b) as (o & Ho & Ht1); auto.
      destruct o as [t1|].
      + right. destruct (Ht1 t1 eq_refl) as (E & Ar1). pose proof Ar1 as (a & Ha & _).
        exists t1, false, a. split; auto. split; [rewrite E; auto|]. split; [rewrite E; auto|].
        split; [rewrite E; simpl; auto|]. split; auto. right. split; auto.
        intros l. rewrite fut_unfold, Ho; auto.
      + left. split; auto. intros l. rewrite fut_unfold, Ho; auto. }
  destruct Hcase as [(Eb & Hfut)|(t1 & m & a & Eb & Es & El & Ar1 & Ha1 & Hc)]; rewrite Eb; simpl.
  { exists st, R. split; auto. apply spost_dead; auto. intros. rewrite Hfut. auto. }
  unfold ep_seq. rewrite (overlapped_ok P A off b) by (auto; rewrite El; auto). simpl. rewrite Es, El.
  destruct (negb (t_label t =? NOLABEL) && (t_start t <? me st (t_label t))) eqn:Eov.
  { (* overlaps a match already reported *)
    simpl. exists st, R. split; auto. apply spost_dead; auto.
    apply andb_true_iff in Eov. destruct Eov as (Eo1 & Eo2).
    apply negb_true_iff, N.eqb_neq in Eo1. apply N.ltb_lt in Eo2.
    intros l X. apply greedy_drop. intros x Hx.
    assert (Hbw: bytes (b :: w)) by (constructor; auto).
    destruct (fut_in P A F W l (b :: w) off t true x Hbw Harr Hx) as (B1 & _ & B3).
    rewrite B1, <- B3 by auto.
    pose proof (gme_mono (Fn (t_label t) (s_next st)) (me st (t_label t)) (Fn_lists P A F W off b w Hoff Hb Hw _ _ (i_next _ _ _ _ I))). lia. }
  match goal with |- exists st' R', ?X = _ /\ _ =>
    replace X with (pushed P (ep_loop fuel P st R t1 off)) end.
  2:{ unfold pushed. destruct (ep_loop fuel P st R t1 off) as [[[s1 r1] [p|]]| | |]; simpl; auto. }
  assert (Fresh: fresh off st t1).
  { unfold fresh. rewrite Es, El. destruct (N.eqb_spec (t_label t) NOLABEL); auto. simpl in Eov.
    apply N.ltb_ge in Eov. auto. }
  assert (Fin: exists st' R' L, pushed P (ep_loop fuel P st R t1 off) = Ok (st', R') /\
       post P A F off b w L st R st' R' /\ (forall p, In p L -> t_start p = t_start t) /\
       (forall l, fut F P l (b :: w) off t = Fn l L)).
  { destruct Hc as [(Hfin & -> & Hfut)|(-> & Hfut)].
    - destruct (Hf Hfin) as (Hse & Hee).
      pose proof (wf_instr _ _ _ W _ _ Ha1) as (_ & Hrk & wd & Hwd & _).
      assert (Hop: w_op wd = OpFinish).
      { unfold is_fin in Hfin. rewrite Hwd in Hfin. destruct (w_op wd); auto; discriminate. }
      destruct (finish_ok P A F W off b w Hoff Hb Hw st R t) as (st' & R' & E' & P'); auto; try lia.
      exists st', R', [t]. split.
      { destruct fuel as [|f']; [lia|]. simpl. unfold fetch, get. rewrite Hwd. simpl. rewrite Hop. auto. }
      split; auto. split. { intros p [<-|[]]; auto. }
      intros l. unfold VmSim.Fn. simpl. rewrite app_nil_r. apply Hfut.
    - pose proof (wf_instr _ _ _ W _ _ Ha1) as (_ & Hrk & _).
      destruct (ep_ok P A F W off b w Hoff Hb Hw (S (a_rk a)) t1 a false fuel st R) as (st' & R' & E' & P');
        auto; try lia.
      + intros; discriminate.
      + intros c Hc. left. auto.
      + exists st', R', (ileaves F P t1 off). split; auto. split; auto. split; auto.
        intros p Hp. rewrite <- Es. apply (il_arrive P A F W t1 false off p); auto. discriminate. }
  destruct Fin as (st' & R' & L & E & HP & HLs & HLf).
  exists st', R'. split; auto. constructor.
  - eapply po_inv; eauto.
  - eapply po_active; eauto.
  - eapply killed_all; eauto. eapply po_R; eauto.
  - eapply killed_length; eapply po_R; eauto.
  - intros c Hc'. destruct (po_checks _ _ _ _ _ _ _ _ _ _ _ HP c Hc') as [H|H]; auto.
    eapply post_cov; eauto.
  - intros Hsrt. destruct (po_next _ _ _ _ _ _ _ _ _ _ _ HP) as (D & ED & FD). rewrite ED.
    eapply srt_step; [exact Hsrt| |apply killed_starts; eapply po_R; eauto].
    eapply Forall_impl; [|exact FD]. simpl. intros p (q & Hq & (_ & S2 & _)). rewrite S2. auto.
  - destruct (po_hits _ _ _ _ _ _ _ _ _ _ _ HP) as (hs & E1 & _ & E3). exists hs. split; auto.
    intros l X HX. specialize (E3 l true [] X (Forall_nil _) HX). simpl in E3.
    simpl. rewrite Fr_cons, <- app_assoc, HLf. exact E3.
Qed.

Lemma list_ok : forall T st, Inv st -> Forall tokr T ->
  (forall c, In c (s_checks st) -> Cov st c) ->
  exists st', run_threads fuel P st T b off = Ok st' /\ spost T st [] st' [].
Proof.
  intros T. unfold run_threads. remember (length T) as n eqn:Hn.
  revert T Hn. induction n as [|n IH]; intros T Hn st I HT HC.
  - destruct T; [|discriminate]. simpl. exists st. split; auto. constructor; auto.
    exists []. rewrite app_nil_r. split; auto.
  - destruct T as [|t T]; [discriminate|]. simpl in Hn. injection Hn as Hn.
    inversion HT; subst. simpl.
    destruct (thread_ok st T t) as (st1 & T1 & E1 & [I1 A1 R1 L1 C1 S1 (h1 & J1 & Q1)]); auto.
    rewrite E1. simpl.
    destruct (IH T1 ltac:(lia) st1 I1 R1 C1) as (st2 & E2 & [I2 A2 R2 L2 C2 S2 (h2 & J2 & Q2)]).
    exists st2. split; auto. constructor; auto.
    + congruence.
    + intros H. apply S2. rewrite app_nil_r in *. apply S1; auto.
    + exists (h1 ++ h2). split. { rewrite J2, J1, app_assoc; auto. }
      intros l X HX. rewrite hits_of_app, <- app_assoc. specialize (Q2 l X HX). rewrite app_nil_r in Q2.
      rewrite <- Q2. specialize (Q1 l X HX). rewrite app_nil_r. exact Q1.
Qed.

End Frame.

(** * Between frames *)

(** [old]: all threads started at earlier offsets. *)
Record GInv (old : bool) (off : N) (st : vmst) : Prop := {
  q_cb : s_cb st = true;
  q_len : length (s_mends st) = N.to_nat (p_maxLabel P + 1);
  q_next : s_next st = [];
  q_checks : s_checks st = [];
  q_liveno : s_liveno st = false;
  q_live : s_live st = [];
  q_active : Forall (tokr P A off) (s_active st);
  q_old : old = true -> Forall (fun t => t_start t < off) (s_active st);
  q_srt : srt (s_active st);
  q_mmax : forall l, me st l <= s_mmax st;
  q_mele : forall l, me st l <= off
}.

Notation SInv := (GInv true).

Lemma sinv_inv old off st : GInv old off st -> Inv P A off st.
Proof.
  intros []. constructor; auto.
  - rewrite q_next0, q_liveno0; auto.
  - intros. rewrite q_next0, q_live0; auto.
  - rewrite q_next0; auto.
  - intros l. specialize (q_mele0 l). lia.
Qed.

Definition init_ok (first : list nat) : Prop :=
  Forall (fun pc => arrive P A NOLABEL false pc) first.

Variable first : list nat.
Hypothesis Hfirst : init_ok first.

Lemma new_tokr off : Forall (tokr P A off) (new_threads first off).
Proof.
  unfold new_threads. apply Forall_map. eapply Forall_impl; [|exact Hfirst].
  intros pc Hpc. simpl. split; simpl; [lia|]. right. split.
  - eapply arrive_weaken; [|exact Hpc]; auto.
  - intros Hf. destruct Hpc as (a & _ & _ & H). rewrite Hf in H.
    pose proof (max_lt_nolabel P A F W). lia.
Qed.

Lemma tokn_tokr off p : tokn P A off p -> tokr P A (off + 1) p.
Proof.
  intros (H1 & H2 & H3 & H4). split; [lia|]. right. split; auto. intros Hf. specialize (H4 Hf). lia.
Qed.

Notation FA l w off := (flat_map (fut F P l w off)).

Lemma me_cleanup st l : me (cleanup st) l = me st l.
Proof. reflexivity. Qed.

Lemma frame_end off st1 T : Inv P A off st1 -> srt T -> (forall t, In t T -> t_start t <= off) ->
  s_next st1 = T -> SInv (off + 1) (cleanup st1).
Proof.
  intros I HS HT EN. destruct I. constructor; simpl; auto.
  - eapply Forall_impl; [|exact i_next]. intros; apply tokn_tokr; auto.
  - intros _. eapply Forall_impl; [|exact i_next]. intros t (_ & _ & H & _). lia.
  - rewrite EN; auto.
Qed.

(** Running the old threads of one frame. *)
Lemma old_ok old off b w st : off + 1 < two64 -> b < 256 -> bytes w -> GInv old off st ->
  exists st', run_threads fuel P st (s_active st) b off = Ok st' /\
    spost off b w (s_active st) st [] st' [].
Proof.
  intros Ho Hb Hw I. apply list_ok; auto.
  - eapply sinv_inv; eauto.
  - apply (q_active _ _ _ I).
  - rewrite (q_checks _ _ _ I). intros c [].
Qed.

Lemma new_srt off : srt (new_threads first off).
Proof. apply (srt_same off). unfold new_threads. apply Forall_map. apply Forall_forall; auto. Qed.

Lemma frame_ok off b w st (new : bool) : off + 1 < two64 -> b < 256 -> bytes w -> SInv off st ->
  (new = false -> forall l, FA l (b :: w) off (new_threads first off) = []) ->
  exists st1, exec_frame fuel P first st new b off = Ok st1 /\ SInv (off + 1) (cleanup st1) /\
    exists hs, s_hits st1 = s_hits st ++ hs /\
    forall l X, lists_ok X ->
      greedy (me st l) (FA l (b :: w) off (s_active st) ++ FA l (b :: w) off (new_threads first off) ++ X) =
      hits_of l hs ++ greedy (me st1 l) (FA l w (off + 1) (s_next st1) ++ X).
Proof.
  intros Ho Hb Hw I Hnew. unfold exec_frame.
  destruct (old_ok true off b w st Ho Hb Hw I) as (st1 & E1 & [I1 A1 R1 L1 C1 S1 (h1 & J1 & Q1)]).
  rewrite E1. simpl. rewrite (q_next _ _ _ I) in *. rewrite !app_nil_r in *. simpl in *.
  specialize (S1 (q_srt _ _ _ I)).
  assert (HLe: forall t, In t (s_next st1) -> t_start t <= off).
  { intros t Ht. pose proof (i_next _ _ _ _ I1) as HN. rewrite Forall_forall in HN. apply (HN t Ht). }
  destruct new.
  - destruct (list_ok off b w Ho Hb Hw (new_threads first off) st1) as
      (st2 & E2 & [I2 A2 R2 L2 C2 S2 (h2 & J2 & Q2)]); auto using new_tokr.
    rewrite E2. exists st2. split; auto. split.
    + apply frame_end with (T := s_next st2); auto.
      * rewrite !app_nil_r in S2. apply S2. apply srt_app. split; auto. split; [apply new_srt|].
        intros x y Hx Hy. unfold new_threads in Hy. apply in_map_iff in Hy. destruct Hy as (pc & <- & _).
        simpl. auto.
      * intros t Ht. pose proof (i_next _ _ _ _ I2) as HN. rewrite Forall_forall in HN. apply (HN t Ht).
    + exists (h1 ++ h2). split. { rewrite J2, J1, app_assoc; auto. }
      intros l X HX. rewrite hits_of_app, <- app_assoc.
      specialize (Q2 l X HX). simpl in Q2. rewrite app_nil_r in Q2. unfold VmSim.Fn, Fr in Q2.
      rewrite <- Q2. clear Q2.
      assert (HNX: lists_ok (FA l (b :: w) off (new_threads first off) ++ X)).
      { apply lists_ok_app. split; auto.
        apply (Fr_lists P A F W off b w Ho Hb Hw). apply new_tokr. }
      specialize (Q1 l _ HNX). exact Q1.
  - exists st1. split; auto. split.
    + apply frame_end with (T := s_next st1); auto.
    + exists h1. split; auto. intros l X HX. rewrite Hnew by auto. simpl.
      specialize (Q1 l X HX). exact Q1.
Qed.

Lemma new_lists l w off : bytes w -> lists_ok (FA l w off (new_threads first off)).
Proof.
  intros Hw. apply Forall_flat_map. eapply Forall_impl; [|apply (new_tokr off)].
  intros p (Hs & [Hh|(Ha & He)]).
  - rewrite fut_halt; auto.
  - apply Forall_forall. intros x Hx.
    destruct (fut_in P A F W l w off p true x Hw Ha Hx) as (E1 & E2 & _).
    rewrite E1. destruct (is_fin P (t_pc p)) eqn:Hf; [destruct (He eq_refl); lia|lia].
Qed.

Lemma all_matches_ok l : forall w off, bytes w -> lists_ok (all_matches F P first l w off).
Proof.
  induction w as [|b w IH]; intros off Hw; [constructor|].
  inversion Hw; subst. change (all_matches F P first l (b :: w) off) with
    (FA l (b :: w) off (new_threads first off) ++ all_matches F P first l w (off + 1)).
  apply lists_ok_app. split; auto.
  apply new_lists; auto.
Qed.

Hypothesis Hfilter : filter_sound F P first.

Lemma filter_pass_app buf rest : p_filterOff P + 1 < N.of_nat (length buf) ->
  filter_pass P (buf ++ rest) = filter_pass P buf /\ exists v, filter_pass P buf = Ok v.
Proof.
  intros H. unfold filter_pass, get. rewrite !nth_error_app1 by lia.
  destruct (nth_error buf (N.to_nat (p_filterOff P))) eqn:E1.
  2:{ apply nth_error_None in E1. lia. }
  destruct (nth_error buf (N.to_nat (p_filterOff P) + 1)) eqn:E2.
  2:{ apply nth_error_None in E2. lia. }
  simpl. split; eauto.
Qed.

Lemma search_loop_ok : forall buf off st, off + N.of_nat (length buf) < two64 -> bytes buf ->
  SInv off st ->
  exists st', search_loop fuel P first st buf off = Ok (st', off + N.of_nat (length buf)) /\
    SInv (off + N.of_nat (length buf)) st' /\
    exists hs, s_hits st' = s_hits st ++ hs /\
    forall l rest, bytes rest ->
      greedy (me st l) (FA l (buf ++ rest) off (s_active st) ++ all_matches F P first l (buf ++ rest) off) =
      hits_of l hs ++
      greedy (me st' l) (FA l rest (off + N.of_nat (length buf)) (s_active st')
                         ++ all_matches F P first l rest (off + N.of_nat (length buf))).
Proof.
  induction buf as [|b buf IH]; intros off st Ho Hbuf I.
  - simpl. replace (off + N.of_nat 0) with off by lia. exists st. split; auto. split; auto.
    exists []. rewrite app_nil_r. split; auto.
  - assert (Hb: b < 256) by (inversion Hbuf; auto).
    assert (Hbuf': bytes buf) by (inversion Hbuf; auto).
    cbn [search_loop].
    assert (Hnew: exists new, (if p_filterOff P + 1 <? N.of_nat (length (b :: buf))
              then filter_pass P (b :: buf) else Ok true) = Ok new /\
       (new = false -> forall l rest, bytes rest -> FA l ((b :: buf) ++ rest) off (new_threads first off) = [])).
    { destruct (N.ltb_spec (p_filterOff P + 1) (N.of_nat (length (b :: buf)))) as [Hlt|].
      - destruct (filter_pass_app (b :: buf) [] Hlt) as (_ & v & Ev). exists v. split; auto.
        intros -> l rest Hr. apply Hfilter.
        + apply Forall_app. auto.
        + rewrite app_length. lia.
        + destruct (filter_pass_app (b :: buf) rest Hlt) as (-> & _). auto.
      - exists true. split; auto. discriminate. }
    destruct Hnew as (new & En & Hn). rewrite En. cbn [bind].
    cbn [length] in *.
    assert (Ho1: off + 1 < two64) by lia.
    (* run the frame once, for the trace; hits do not depend on the rest of the stream *)
    destruct (frame_ok off b buf st new Ho1 Hb Hbuf' I) as (st1 & E1 & I1 & h1 & J1 & _).
    { intros E l. specialize (Hn E l [] (Forall_nil _)). rewrite app_nil_r in Hn. auto. }
    rewrite E1. cbn [bind]. rewrite (N.mod_small (off + 1)) by auto.
    destruct (IH (off + 1) (cleanup st1)) as (st' & E' & I' & h2 & J2 & Q2); auto; [lia|].
    replace (off + 1 + N.of_nat (length buf)) with (off + N.of_nat (S (length buf))) in * by lia.
    exists st'. split; auto. split; auto.
    exists (h1 ++ h2). split. { rewrite J2. simpl. rewrite J1, app_assoc; auto. }
    intros l rest Hrest.
    assert (Hbr: bytes (buf ++ rest)) by (apply Forall_app; auto).
    destruct (frame_ok off b (buf ++ rest) st new Ho1 Hb Hbr I) as (st1' & E1' & _ & h1' & J1' & Q1').
    { intros E l'. apply (Hn E l' rest Hrest). }
    rewrite E1 in E1'. injection E1' as <-. rewrite J1 in J1'. apply app_inv_head in J1'. subst h1'.
    rewrite hits_of_app, <- app_assoc, <- Q2 by auto.
    rewrite me_cleanup. cbn [s_active cleanup].
    rewrite <- Q1' by (apply all_matches_ok; auto). reflexivity.
Qed.

Lemma with_cb_sinv off st : SInv off st -> SInv off (with_cb st true).
Proof. intros []. constructor; auto. Qed.

Lemma leftmost_ok : forall L off o, Forall (tokr P A off) L -> exists r, leftmost_live P L o = Ok r.
Proof.
  induction L as [|t L IH]; intros off o HL; simpl; eauto. inversion HL; subst.
  assert (exists wd, fetch P (t_pc t) = Ok wd) as (wd & Ew).
  { destruct H1 as (_ & [Hh|(Ha & _)]).
    - unfold is_halt in Hh. unfold fetch, get. destruct (nth_error _ _); eauto. discriminate.
    - destruct (arrive_inv P A F W _ _ _ Ha) as (a & wd & _ & Hwd & _). unfold fetch, get. rewrite Hwd. eauto. }
  rewrite Ew. simpl. destruct (is_dead_op wd); eauto.
Qed.

(** One lg_search call. *)
Lemma search_ok buf off st : off + N.of_nat (length buf) < two64 -> bytes buf -> SInv off st ->
  exists st' r, search fuel P first st buf off true = Ok (st', r) /\
    leftmost_live P (s_active st') (off + N.of_nat (length buf)) = Ok r /\
    SInv (off + N.of_nat (length buf)) st' /\
    exists hs, s_hits st' = s_hits st ++ hs /\
    forall l rest, bytes rest ->
      greedy (me st l) (FA l (buf ++ rest) off (s_active st) ++ all_matches F P first l (buf ++ rest) off) =
      hits_of l hs ++
      greedy (me st' l) (FA l rest (off + N.of_nat (length buf)) (s_active st')
                         ++ all_matches F P first l rest (off + N.of_nat (length buf))).
Proof.
  intros Ho Hb I. unfold search.
  destruct (search_loop_ok buf off (with_cb st true) Ho Hb (with_cb_sinv _ _ I)) as (st' & E & I' & hs & J & Q).
  rewrite E. simpl.
  destruct (leftmost_ok (s_active st') _ (off + N.of_nat (length buf)) (q_active _ _ _ I')) as (r & Er).
  rewrite Er. simpl. exists st', r. split; auto. split; auto. split; auto. exists hs. split; auto.
Qed.

(** Closing out. *)
Lemma close_ok : forall L off st, s_cb st = true -> length (s_mends st) = N.to_nat (p_maxLabel P + 1) ->
  off < two64 ->
  Forall (tokr P A off) L -> (forall l, me st l <= off) ->
  exists st', close_loop P st L = Ok st' /\
    exists hs, s_hits st' = s_hits st ++ hs /\
      forall l, hits_of l hs = greedy (me st l) (FA l [] off L).
Proof.
  induction L as [|t L IH]; intros off st Hcb Hlen Ho HL Hme; simpl.
  - exists st. split; auto. exists []. rewrite app_nil_r. auto.
  - inversion HL; subst. destruct H1 as (Hs & Ht).
    destruct (is_halt P (t_pc t)) eqn:Hh.
    { unfold is_halt in Hh. unfold is_fin, fetch, get. destruct (nth_error _ (t_pc t)) as [wd|]; [|discriminate].
      simpl. destruct (w_op wd) eqn:Hop; try discriminate. simpl. apply (IH off); auto. }
    destruct Ht as [?|(Ha & Hf)]; [congruence|].
    destruct (arrive_inv P A F W _ _ _ Ha) as (a & wd & _ & Hwd & _ & _ & _ & _ & Hx).
    unfold fetch, get. rewrite Hwd. simpl.
    destruct (is_fin P (t_pc t)) eqn:Hfin.
    + assert (Hop: w_op wd = OpFinish).
      { unfold is_fin in Hfin. rewrite Hwd in Hfin. destruct (w_op wd); auto; discriminate. }
      rewrite Hop. destruct (Hf eq_refl) as (Hf1 & Hf2).
      assert (Hg: get_mend st (t_label t) = Ok (me st (t_label t))).
      { unfold get_mend, me. destruct (get_lt (s_mends st) (N.to_nat (t_label t))) as (v & Hv). { lia. }
        rewrite Hv. f_equal. rewrite get_ok in Hv. symmetry. apply nth_error_nth; auto. }
      rewrite Hg. simpl.
      destruct (N.leb_spec (me st (t_label t)) (t_start t)) as [Hle|Hgt].
      * unfold set_at. destruct (Nat.ltb_spec (N.to_nat (t_label t)) (length (s_mends st))) as [Hlt|]; [|lia].
        simpl. rewrite (N.mod_small (t_end t + 1)) by lia.
        unfold emit. simpl. rewrite Hcb.
        match goal with |- exists st', close_loop P ?s L = _ /\ _ => set (st1 := s) end.
        assert (ME: forall l', me st1 l' = if l' =? t_label t then t_end t + 1 else me st l').
        { intros l'. unfold st1, me. simpl. destruct (N.eqb_spec l' (t_label t)) as [->|Hne].
          - apply nth_error_nth, nth_upd_same. lia.
          - destruct (nth_error (s_mends st) (N.to_nat l')) eqn:E.
            + erewrite nth_error_nth; [symmetry; apply nth_error_nth; eauto|]. rewrite nth_upd_other; auto. lia.
            + apply nth_error_None in E. rewrite !nth_overflow; auto. rewrite upd_length; auto. }
        destruct (IH off st1) as (st' & E' & hs & J & Q); auto.
        { unfold st1. simpl. rewrite upd_length; auto. }
        { intros l. rewrite ME. destruct (l =? t_label t); auto. lia. }
        exists st'. split; auto.
        exists (mkHit (t_start t) (t_end t + 1) (t_label t) :: hs). split.
        { rewrite J. unfold st1. simpl. rewrite <- app_assoc. auto. }
        intros l. unfold hits_of. simpl. specialize (Q l). rewrite ME in Q.
        rewrite (N.eqb_sym l) in Q.
        destruct (N.eqb_spec (t_label t) l) as [El|Hne]; simpl; [rewrite <- El in *|].
        -- destruct (N.leb_spec (me st (t_label t)) (t_start t)); [|lia]. f_equal. exact Q.
        -- exact Q.
      * destruct (IH off st) as (st' & E' & hs & J & Q); auto.
        exists st'. split; auto. exists hs. split; auto. intros l. rewrite Q.
        destruct (N.eqb_spec (t_label t) l) as [El|Hne]; simpl; auto. rewrite <- El.
        destruct (N.leb_spec (me st (t_label t)) (t_start t)); [lia|auto].
    + destruct (IH off st) as (st' & E' & hs & J & Q); auto.
      destruct (w_op wd) eqn:Hop; try (exists st'; split; auto; exists hs; split; auto; fail).
      unfold is_fin in Hfin. rewrite Hwd, Hop in Hfin. discriminate.
Qed.

(** * Whole sessions *)

Fixpoint chunk_calls (off : N) (chunks : list (list N)) : list call :=
  match chunks with
  | [] => []
  | c :: r => CSearch c off true :: chunk_calls (off + N.of_nat (length c)) r
  end.

Lemma chunks_ok : forall chunks off st, off + N.of_nat (length (concat chunks)) < two64 ->
  bytes (concat chunks) -> SInv off st ->
  exists st' vs, vm_calls fuel P first st (chunk_calls off chunks) = Ok (st', vs) /\
    SInv (off + N.of_nat (length (concat chunks))) st' /\
    exists hs, s_hits st' = s_hits st ++ hs /\
    forall l rest, bytes rest ->
      greedy (me st l) (FA l (concat chunks ++ rest) off (s_active st)
                        ++ all_matches F P first l (concat chunks ++ rest) off) =
      hits_of l hs ++
      greedy (me st' l) (FA l rest (off + N.of_nat (length (concat chunks))) (s_active st')
                         ++ all_matches F P first l rest (off + N.of_nat (length (concat chunks)))).
Proof.
  induction chunks as [|c chunks IH]; intros off st Ho Hb I; simpl.
  - replace (off + N.of_nat 0) with off by lia. exists st, []. split; auto. split; auto.
    exists []. rewrite app_nil_r. split; auto.
  - simpl in Ho, Hb. rewrite app_length in *. apply Forall_app in Hb. destruct Hb as (Hb1 & Hb2).
    destruct (search_ok c off st) as (st1 & r & E1 & _ & I1 & h1 & J1 & Q1); auto; [lia|].
    rewrite E1. simpl.
    destruct (IH (off + N.of_nat (length c)) st1) as (st2 & vs & E2 & I2 & h2 & J2 & Q2); auto; [lia|].
    rewrite E2. simpl.
    replace (off + N.of_nat (length c) + N.of_nat (length (concat chunks)))
      with (off + N.of_nat (length c + length (concat chunks))) in * by lia.
    exists st2, (r :: vs). split; auto. split; auto.
    exists (h1 ++ h2). split. { rewrite J2, J1, app_assoc; auto. }
    intros l rest Hr. rewrite ?app_length. rewrite hits_of_app, <- !app_assoc, <- Q2 by auto.
    rewrite <- Q1 by (apply Forall_app; auto). auto.
Qed.

Lemma vm_calls_app : forall a c st,
  vm_calls fuel P first st (a ++ c) =
  ('(st1, v1) <- vm_calls fuel P first st a ;;
   '(st2, v2) <- vm_calls fuel P first st1 c ;; Ok (st2, v1 ++ v2)).
Proof.
  induction a as [|x a IH]; intros c st; simpl.
  - destruct (vm_calls fuel P first st c) as [[? ?]| | |]; auto.
  - destruct (vm_call fuel P first st x) as [[st1 v]| | |]; simpl; auto.
    rewrite IH. destruct (vm_calls fuel P first st1 a) as [[st2 vs]| | |]; simpl; auto.
    destruct (vm_calls fuel P first st2 c) as [[st3 vs3]| | |]; simpl; auto.
Qed.

(** State after reset or creation, for any start offset. *)
Definition fresh_state (st : vmst) : Prop :=
  s_active st = [] /\ s_next st = [] /\ s_checks st = [] /\ s_liveno st = false /\ s_live st = [] /\
  s_mends st = repeat 0 (N.to_nat (p_maxLabel P + 1)) /\ s_mmax st = 0.

Lemma fresh_me st l : fresh_state st -> me st l = 0.
Proof.
  intros (_ & _ & _ & _ & _ & H & _). unfold me. rewrite H.
  destruct (nth_in_or_default (N.to_nat l) (repeat 0 (N.to_nat (p_maxLabel P + 1))) 0) as [Hin|]; auto.
  apply repeat_spec in Hin. auto.
Qed.

Lemma fresh_sinv off st : fresh_state st -> SInv off (with_cb st true).
Proof.
  intros H. pose proof (fun l => fresh_me st l H) as HM.
  destruct H as (H1 & H2 & H3 & H4 & H5 & H6 & H7). constructor; simpl; auto.
  - rewrite H6, repeat_length. auto.
  - rewrite H1. constructor.
  - rewrite H1. constructor.
  - rewrite H1. constructor.
  - intros l. change (me (with_cb st true) l) with (me st l). rewrite HM. lia.
  - intros l. change (me (with_cb st true) l) with (me st l). rewrite HM. lia.
Qed.

Lemma vm_calls_cb st chunks off : chunks <> [] ->
  vm_calls fuel P first (with_cb st true) (chunk_calls off chunks) =
  vm_calls fuel P first st (chunk_calls off chunks).
Proof. destruct chunks; [congruence|]. intros _. reflexivity. Qed.

(** Searching a stream in buffers and closing out. *)
Lemma stream_ok chunks off st : off + N.of_nat (length (concat chunks)) < two64 ->
  bytes (concat chunks) -> fresh_state st ->
  exists st' vs, vm_calls fuel P first st (chunk_calls off chunks ++ [CClose true]) = Ok (st', vs) /\
    exists hs, s_hits st' = s_hits st ++ hs /\
      forall l, hits_of l hs = greedy 0 (all_matches F P first l (concat chunks) off).
Proof.
  intros Ho Hb Hf. pose proof (fresh_sinv off st Hf) as I.
  destruct (chunks_ok chunks off (with_cb st true) Ho Hb I) as (st1 & vs & E1 & I1 & h1 & J1 & Q1).
  rewrite vm_calls_app.
  assert (EX: exists st1', vm_calls fuel P first st (chunk_calls off chunks) = Ok (st1', vs) /\ with_cb st1' true = st1).
  { destruct chunks as [|c cs].
    - simpl in *. injection E1 as <- <-. exists st. auto.
    - exists st1. split; [rewrite <- E1; reflexivity|]. destruct I1. destruct st1; simpl in *. subst. reflexivity. }
  destruct EX as (st1' & E1' & Ecb). rewrite E1'. cbn [bind vm_calls vm_call].
  unfold close_out. rewrite Ecb.
  destruct (close_ok (s_active st1) (off + N.of_nat (length (concat chunks))) st1) as (st2 & E2 & h2 & J2 & Q2);
    try apply I1; auto.
  rewrite E2. simpl. eexists st2, _. split; [reflexivity|].
  exists (h1 ++ h2). split. { rewrite J2, J1, app_assoc; auto. }
  intros l. rewrite hits_of_app, Q2. specialize (Q1 l [] (Forall_nil _)).
  simpl all_matches in Q1 at 2. rewrite !app_nil_r in Q1. rewrite <- Q1.
  destruct Hf as (Hact & Hf). cbn [with_cb s_active]. rewrite Hact. simpl flat_map. simpl app.
  change (me (with_cb st true) l) with (me st l). rewrite fresh_me; auto. split; auto.
Qed.

End Search.
