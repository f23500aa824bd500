(** Facts about the engine on arbitrary programs, well formed or not. *)
From Verif Require Import Base VmModel VmSpec VmIdeal VmSim.
Open Scope N_scope.

(** * The recorded hits do not influence execution *)

Definition pre (h : list hit) (st : vmst) : vmst := with_hits st (h ++ s_hits st).

Definition rmap {X Y} (f : X -> Y) (r : res X) : res Y :=
  match r with Ok x => Ok (f x) | UB => UB | Fuel => Fuel | Throw => Throw end.

Lemma bind_rmap {X Y Z} (f : X -> Y) (g : Y -> res Z) r : bind (rmap f r) g = bind r (fun x => g (f x)).
Proof. destruct r; auto. Qed.

Lemma rmap_bind {X Y Z} (f : Y -> Z) (r : res X) g : rmap f (bind r g) = bind r (fun x => rmap f (g x)).
Proof. destruct r; auto. Qed.

Lemma bind_ext {X Y} (r : res X) (f g : X -> res Y) : (forall x, f x = g x) -> bind r f = bind r g.
Proof. intros H. destruct r; simpl; auto. Qed.

Lemma pre_emit h st x : emit (pre h st) x = pre h (emit st x).
Proof. unfold emit, pre. simpl. destruct (s_cb st); simpl; auto. unfold with_hits; simpl. rewrite app_assoc; auto. Qed.

Lemma pre_push h P st t : push_next P (pre h st) t = rmap (pre h) (push_next P st t).
Proof.
  unfold push_next, markLive, find_live. simpl. destruct (t_label t =? NOLABEL); simpl; auto.
  destruct (t_label t <? _); simpl; auto. destruct (mem _ _); auto.
Qed.

Definition pre3 h (x : vmst * list thread * option thread) := (pre h (fst (fst x)), snd (fst x), snd x).
Definition pre2 {X} h (x : vmst * X) := (pre h (fst x), snd x).

Lemma pre_finish h P st R t off : exec_finish P (pre h st) R t off = rmap (pre3 h) (exec_finish P st R t off).
Proof.
  unfold exec_finish, find_live, get_mend, get. simpl.
  destruct (s_liveno st); simpl; auto.
  destruct (t_label t <? _); simpl; auto. destruct (mem _ _); simpl; auto.
  destruct (nth_error _ _); simpl; auto. destruct (_ <=? _); simpl; auto.
  unfold set_at. destruct (_ <? _)%nat; simpl; auto.
  unfold pre3. cbn [fst snd]. do 3 f_equal. rewrite <- pre_emit. reflexivity.
Qed.

Lemma pre_overlapped h st t : overlapped (pre h st) t = overlapped st t.
Proof. reflexivity. Qed.

Lemma pre_checks h st c : with_checks (pre h st) c = pre h (with_checks st c).
Proof. reflexivity. Qed.

Lemma pre_loop h P off : forall f st R t, ep_loop f P (pre h st) R t off = rmap (pre3 h) (ep_loop f P st R t off).
Proof.
  induction f as [|f IH]; intros st R t; simpl; auto.
  rewrite rmap_bind. apply bind_ext. intros w. destruct (w_op w); auto.
  - apply pre_finish.
  - rewrite rmap_bind. change (overlapped (pre h st)) with (overlapped st).
    apply bind_ext. intros ov.
    assert (E: (if ov then Ok (pre h st, R, None) else ep_loop f P (pre h st) R (set_pc t (t_pc t + 2)) off)
      = rmap (pre3 h) (if ov then Ok (st, R, None) else ep_loop f P st R (set_pc t (t_pc t + 2)) off)).
    { destruct ov; auto. }
    rewrite E, bind_rmap, rmap_bind. apply bind_ext. intros [[s1 R1] oc]. unfold pre3 at 1. cbn [fst snd].
    assert (E2: match oc with Some c' => push_next P (pre h s1) c' | None => Ok (pre h s1) end =
      rmap (pre h) match oc with Some c' => push_next P s1 c' | None => Ok s1 end).
    { destruct oc; auto. apply pre_push. }
    rewrite E2, bind_rmap, rmap_bind. apply bind_ext. intros s2.
    rewrite rmap_bind. apply bind_ext. auto.
  - rewrite rmap_bind. apply bind_ext. auto.
  - change (find_check P (pre h st)) with (find_check P st). rewrite rmap_bind. apply bind_ext.
    intros [|]; auto. change (live_check P (pre h st)) with (live_check P st). rewrite rmap_bind. apply bind_ext.
    intros [|]; auto. rewrite pre_checks. apply IH.
  - change (get_mend (pre h st)) with (get_mend st). rewrite rmap_bind. apply bind_ext.
    intros m. destruct (m <=? t_start t); auto.
  - change (find_live P (pre h st)) with (find_live P st). cbn [s_liveno pre with_hits].
    rewrite rmap_bind. apply bind_ext. auto.
Qed.

Lemma pre_seq h f P st R t off : ep_seq f P (pre h st) R t off = rmap (pre3 h) (ep_seq f P st R t off).
Proof.
  unfold ep_seq. change (overlapped (pre h st)) with (overlapped st). rewrite rmap_bind. apply bind_ext.
  intros [|]; auto using pre_loop.
Qed.

Lemma pre_thread h f P st R t b off : exec_thread f P (pre h st) R t b off = rmap (pre2 h) (exec_thread f P st R t b off).
Proof.
  unfold exec_thread. rewrite rmap_bind. apply bind_ext. intros [t1|]; auto.
  rewrite pre_seq, bind_rmap, rmap_bind. apply bind_ext. intros [[s1 R1] [t2|]]; unfold pre3; cbn [fst snd]; auto.
  rewrite pre_push, bind_rmap, rmap_bind. apply bind_ext. auto.
Qed.

Lemma pre_list h f P b off : forall n L st, run_list n f P (pre h st) L b off = rmap (pre h) (run_list n f P st L b off).
Proof.
  induction n as [|n IH]; intros [|t L] st; simpl; auto.
  rewrite pre_thread, bind_rmap, rmap_bind. apply bind_ext. intros [s1 R1]. apply IH.
Qed.

Lemma pre_frame h f P first st new b off :
  exec_frame f P first (pre h st) new b off = rmap (pre h) (exec_frame f P first st new b off).
Proof.
  unfold exec_frame, run_threads. change (s_active (pre h st)) with (s_active st).
  rewrite pre_list, bind_rmap, rmap_bind. apply bind_ext. intros s1.
  destruct new; auto. apply pre_list.
Qed.

Lemma pre_search_loop h f P first : forall buf st off,
  search_loop f P first (pre h st) buf off = rmap (pre2 h) (search_loop f P first st buf off).
Proof.
  induction buf as [|b buf IH]; intros st off; cbn [search_loop]; auto.
  rewrite rmap_bind. apply bind_ext. intros new. rewrite pre_frame, bind_rmap, rmap_bind. apply bind_ext.
  intros s1. change (cleanup (pre h s1)) with (pre h (cleanup s1)). apply IH.
Qed.

Lemma pre_resolve h f P b off : forall n L st had,
  run_resolve n f P (pre h st) L b off had = rmap (pre2 h) (run_resolve n f P st L b off had).
Proof.
  induction n as [|n IH]; intros [|t L] st had; simpl; auto.
  rewrite rmap_bind. apply bind_ext. intros w.
  rewrite pre_thread, bind_rmap, rmap_bind. apply bind_ext. intros [s1 R1]. apply IH.
Qed.

Lemma pre_resolve_loop h f P : forall buf st off had,
  resolve_loop f P (pre h st) buf off had = rmap (pre2 h) (resolve_loop f P st buf off had).
Proof.
  induction buf as [|b buf IH]; intros st off had; cbn [resolve_loop]; auto.
  change (s_active (pre h st)) with (s_active st).
  destruct (s_active st) as [|a0 r0] eqn:EA; auto. destruct had; auto.
  rewrite pre_resolve, bind_rmap, rmap_bind. apply bind_ext. intros [s1 h1].
  unfold pre2 at 1. cbn [fst snd]. change (cleanup (pre h s1)) with (pre h (cleanup s1)). apply IH.
Qed.

Lemma pre_close_loop h P : forall L st, close_loop P (pre h st) L = rmap (pre h) (close_loop P st L).
Proof.
  induction L as [|t L IH]; intros st; simpl; auto.
  rewrite rmap_bind. apply bind_ext. intros w. destruct (w_op w); auto.
  change (get_mend (pre h st)) with (get_mend st). rewrite rmap_bind. apply bind_ext. intros m.
  destruct (m <=? t_start t); auto. rewrite rmap_bind. apply bind_ext. intros ms.
  rewrite <- IH. f_equal. rewrite <- pre_emit. reflexivity.
Qed.

Lemma pre_close h P st cb : close_out P (pre h st) cb = rmap (pre h) (close_out P st cb).
Proof.
  unfold close_out. change (with_cb (pre h st) cb) with (pre h (with_cb st cb)). destruct cb; auto.
  apply pre_close_loop.
Qed.

Lemma pre_starts_loop h f P : forall buf st off,
  starts_loop f P (pre h st) buf off = rmap (pre h) (starts_loop f P st buf off).
Proof.
  induction buf as [|b buf IH]; intros st off; cbn [starts_loop]; auto.
  unfold run_threads. change (s_active (pre h st)) with (s_active st).
  rewrite pre_list, bind_rmap, rmap_bind. apply bind_ext. intros s1.
  change (cleanup (pre h s1)) with (pre h (cleanup s1)).
  change (s_active (pre h (cleanup s1))) with (s_active (cleanup s1)).
  destruct (s_active (cleanup s1)); auto.
Qed.

Lemma pre_starts h f P first st buf start cb :
  starts_with f P first (pre h st) buf start cb = rmap (pre h) (starts_with f P first st buf start cb).
Proof.
  unfold starts_with. rewrite rmap_bind. apply bind_ext. intros [|]; auto.
  change (with_active (with_cb (pre h st) cb) (s_active (with_cb (pre h st) cb) ++ new_threads first start))
    with (pre h (with_active (with_cb st cb) (s_active (with_cb st cb) ++ new_threads first start))).
  rewrite pre_starts_loop, bind_rmap, rmap_bind. apply bind_ext. intros s1.
  rewrite pre_close, bind_rmap, rmap_bind. apply bind_ext. auto.
Qed.

Lemma pre_call h f P first st c : vm_call f P first (pre h st) c = rmap (pre2 h) (vm_call f P first st c).
Proof.
  destruct c; simpl.
  - unfold search. change (with_cb (pre h st) cb) with (pre h (with_cb st cb)).
    rewrite pre_search_loop, bind_rmap, rmap_bind. apply bind_ext. intros [s1 o1].
    unfold pre2 at 1 2. cbn [fst snd]. change (s_active (pre h s1)) with (s_active s1).
    rewrite rmap_bind. apply bind_ext. auto.
  - unfold search_resolve. change (with_cb (pre h st) cb) with (pre h (with_cb st cb)).
    rewrite pre_resolve_loop, bind_rmap, rmap_bind. apply bind_ext. intros [s1 o1].
    unfold pre2 at 1 2. cbn [fst snd]. change (s_active (pre h s1)) with (s_active s1).
    rewrite rmap_bind. apply bind_ext. auto.
  - rewrite pre_close, bind_rmap, rmap_bind. apply bind_ext. auto.
  - rewrite pre_starts, bind_rmap, rmap_bind. apply bind_ext. auto.
  - reflexivity.
Qed.

Lemma pre_calls h f P first : forall cs st, vm_calls f P first (pre h st) cs = rmap (pre2 h) (vm_calls f P first st cs).
Proof.
  induction cs as [|c cs IH]; intros st; simpl; auto.
  rewrite pre_call, bind_rmap, rmap_bind. apply bind_ext. intros [s1 v]. unfold pre2 at 1. cbn [fst snd].
  rewrite IH, bind_rmap, rmap_bind. apply bind_ext. intros [s2 vs]. reflexivity.
Qed.

(** * The callback flag, the table of match ends and the hits reported *)

(** The hits of one keyword go from match end [m] to match end [m'], each starting at or
    after the end of the one before. *)
Fixpoint chain (m : N) (hs : list (N * N)) (m' : N) : Prop :=
  match hs with
  | [] => m = m'
  | (s, e) :: r => m <= s /\ chain e r m'
  end.

Lemma chain_app : forall a b m m1 m2, chain m a m1 -> chain m1 b m2 -> chain m (a ++ b) m2.
Proof.
  induction a as [|[s e] a IH]; simpl; intros b m m1 m2.
  - intros ->; auto.
  - intros (H1 & H2) H3. split; eauto.
Qed.

Record ext (st st' : vmst) : Prop := {
  x_cb : s_cb st' = s_cb st;
  x_len : length (s_mends st') = length (s_mends st);
  x_hits : exists hs, s_hits st' = s_hits st ++ hs /\
     (s_cb st = true -> forall l, chain (me st l) (hits_of l hs) (me st' l)) /\
     (s_cb st = false -> hs = [])
}.

Lemma ext_refl st : ext st st.
Proof. constructor; auto. exists []. rewrite app_nil_r. split; auto. split; auto. intros; simpl; auto. Qed.

Lemma ext_trans a b c : ext a b -> ext b c -> ext a c.
Proof.
  intros [C1 L1 (h1 & E1 & H1 & N1)] [C2 L2 (h2 & E2 & H2 & N2)]. constructor; try congruence.
  exists (h1 ++ h2). split. { rewrite E2, E1, app_assoc; auto. }
  split; [intros C l; rewrite hits_of_app; eapply chain_app; [apply H1; auto|apply H2; congruence]|].
  intros C. rewrite N1, N2; auto; congruence.
Qed.

Lemma ext_same st st' : s_cb st' = s_cb st -> s_mends st' = s_mends st -> s_hits st' = s_hits st -> ext st st'.
Proof.
  intros A B C. constructor; auto; [congruence|]. exists []. rewrite app_nil_r. split; auto. split; auto.
  intros _ l. simpl. unfold me. rewrite B. auto.
Qed.

Lemma ext_emit st t e ms x : nth_error (s_mends st) (N.to_nat (t_label t)) = Some x -> x <= t_start t ->
  (N.to_nat (t_label t) < length (s_mends st))%nat ->
  ext st (emit (with_mends st (upd (s_mends st) (N.to_nat (t_label t)) e) ms) (mkHit (t_start t) e (t_label t))).
Proof.
  intros Hx Hle Hlt. constructor.
  - unfold emit. simpl. destruct (s_cb st) eqn:E; auto.
  - unfold emit. simpl. destruct (s_cb st); simpl; apply upd_length.
  - unfold emit. simpl. destruct (s_cb st) eqn:E; simpl.
    + eexists. split; [reflexivity|]. split; [|discriminate]. intros _ l. unfold hits_of. simpl.
      destruct (N.eqb_spec (t_label t) l) as [El|Hne]; simpl.
      * rewrite <- El. unfold me. simpl. rewrite (nth_error_nth _ _ _ Hx). split; auto.
        symmetry. apply nth_error_nth, nth_upd_same; auto.
      * unfold me. simpl. destruct (nth_error (s_mends st) (N.to_nat l)) eqn:En.
        -- rewrite (nth_error_nth _ _ _ En). symmetry. apply nth_error_nth. rewrite nth_upd_other; auto. lia.
        -- apply nth_error_None in En. rewrite !nth_overflow; auto. rewrite upd_length; auto.
    + exists []. rewrite app_nil_r. split; auto. split; auto. discriminate.
Qed.

Lemma ok_bind {X Y} (r : res X) (f : X -> res Y) y : bind r f = Ok y -> exists x, r = Ok x /\ f x = Ok y.
Proof. destruct r; simpl; try discriminate; eauto. Qed.

Ltac inv_bind H := let x := fresh "x" in let E := fresh "E" in apply ok_bind in H; destruct H as (x & E & H).

Lemma ext_push P st t st' : push_next P st t = Ok st' -> ext st st'.
Proof.
  unfold push_next, markLive, find_live. intros H. inv_bind H.
  injection H as <-. destruct (t_label t =? NOLABEL). { injection E as <-. apply ext_same; auto. }
  destruct (t_label t <? _); [|discriminate]. simpl in E. destruct (mem _ _); injection E as <-; apply ext_same; auto.
Qed.

Lemma ext_finish P st R t off st' R' o : exec_finish P st R t off = Ok (st', R', o) -> ext st st'.
Proof.
  unfold exec_finish. intros H. inv_bind H. destruct x. { injection H as <- _ _. apply ext_refl. }
  inv_bind H. destruct (N.leb_spec x (t_start t)) as [Hle|]; [|injection H as <- _ _; apply ext_refl].
  unfold set_at in H. destruct (Nat.ltb_spec (N.to_nat (t_label t)) (length (s_mends st))); [|discriminate].
  simpl in H. injection H as <- _ _. eapply ext_emit; eauto. apply get_ok. exact E0.
Qed.

Lemma ext_loop P off : forall f st R t st' R' o, ep_loop f P st R t off = Ok (st', R', o) -> ext st st'.
Proof.
  induction f as [|f IH]; intros st R t st' R' o H; [discriminate|]. simpl in H. inv_bind H.
  destruct (w_op x); try (injection H as <- _ _; apply ext_refl).
  - eapply ext_finish; eauto.
  - inv_bind H. inv_bind H. destruct x1 as [[s1 R1] oc]. inv_bind H. inv_bind H.
    apply ext_trans with s1. { destruct x0; [injection E1 as <- _ _; apply ext_refl|eauto]. }
    apply ext_trans with x1. { destruct oc; [eapply ext_push; eauto|injection E2 as <-; apply ext_refl]. }
    eauto.
  - inv_bind H. eauto.
  - inv_bind H. destruct x0; [injection H as <- _ _; apply ext_refl|]. inv_bind H.
    destruct x0; eauto. eapply ext_trans; [|eauto]. apply ext_same; auto.
  - inv_bind H. destruct (x0 <=? t_start t); eauto. injection H as <- _ _; apply ext_refl.
  - inv_bind H. eauto.
Qed.

Lemma ext_seq f P st R t off st' R' o : ep_seq f P st R t off = Ok (st', R', o) -> ext st st'.
Proof.
  unfold ep_seq. intros H. inv_bind H. destruct x; [injection H as <- _ _; apply ext_refl|].
  eapply ext_loop; eauto.
Qed.

Lemma ext_thread f P st R t b off st' R' : exec_thread f P st R t b off = Ok (st', R') -> ext st st'.
Proof.
  unfold exec_thread. intros H. inv_bind H. destruct x as [t1|]; [|injection H as <- _; apply ext_refl].
  inv_bind H. destruct x as [[s1 R1] o]. apply ext_trans with s1. { eapply ext_seq; eauto. }
  destruct o; [|injection H as <- _; apply ext_refl]. inv_bind H. injection H as <- _. eapply ext_push; eauto.
Qed.

Lemma ext_list f P b off : forall n L st st', run_list n f P st L b off = Ok st' -> ext st st'.
Proof.
  induction n as [|n IH]; intros [|t L] st st' H; simpl in H; try discriminate;
    try (injection H as <-; apply ext_refl).
  inv_bind H. destruct x as [s1 R1]. eapply ext_trans; [eapply ext_thread; eauto|eauto].
Qed.

Lemma ext_frame f P first st new b off st' : exec_frame f P first st new b off = Ok st' -> ext st st'.
Proof.
  unfold exec_frame, run_threads. intros H. inv_bind H. eapply ext_trans; [eapply ext_list; eauto|].
  destruct new; [eapply ext_list; eauto|injection H as <-; apply ext_refl].
Qed.

Lemma ext_cleanup st : ext st (cleanup st).
Proof. apply ext_same; auto. Qed.

Lemma ext_search_loop f P first : forall buf st off st' o, search_loop f P first st buf off = Ok (st', o) -> ext st st'.
Proof.
  induction buf as [|b buf IH]; intros st off st' o H; cbn [search_loop] in H.
  - injection H as <- _. apply ext_refl.
  - inv_bind H. inv_bind H. eapply ext_trans; [eapply ext_frame; eauto|].
    eapply ext_trans; [apply ext_cleanup|eauto].
Qed.

Lemma ext_resolve f P b off : forall n L st had st' h', run_resolve n f P st L b off had = Ok (st', h') -> ext st st'.
Proof.
  induction n as [|n IH]; intros [|t L] st had st' h' H; simpl in H; try discriminate;
    try (injection H as <- _; apply ext_refl).
  inv_bind H. inv_bind H. destruct x0 as [s1 R1]. eapply ext_trans; [eapply ext_thread; eauto|eauto].
Qed.

Lemma ext_resolve_loop f P : forall buf st off had st' o, resolve_loop f P st buf off had = Ok (st', o) -> ext st st'.
Proof.
  induction buf as [|b buf IH]; intros st off had st' o H; cbn [resolve_loop] in H.
  - injection H as <- _. apply ext_refl.
  - destruct (s_active st); [injection H as <- _; apply ext_refl|].
    destruct had; [|injection H as <- _; apply ext_refl]. inv_bind H. destruct x as [s1 h1].
    eapply ext_trans; [eapply ext_resolve; eauto|]. eapply ext_trans; [apply ext_cleanup|eauto].
Qed.

Lemma ext_close P : forall L st st', close_loop P st L = Ok st' -> ext st st'.
Proof.
  induction L as [|t L IH]; intros st st' H; simpl in H.
  - injection H as <-. apply ext_refl.
  - inv_bind H. destruct (w_op x); eauto. inv_bind H.
    destruct (N.leb_spec x0 (t_start t)); eauto.
    unfold set_at in H. destruct (Nat.ltb_spec (N.to_nat (t_label t)) (length (s_mends st))); [|discriminate].
    simpl in H. eapply ext_trans; [|eauto]. eapply ext_emit; eauto. apply get_ok. exact E0.
Qed.

Lemma len_starts_loop f P : forall buf st off st', starts_loop f P st buf off = Ok st' ->
  length (s_mends st') = length (s_mends st).
Proof.
  induction buf as [|b buf IH]; intros st off st' H; cbn [starts_loop] in H.
  - injection H as <-. auto.
  - inv_bind H. unfold run_threads in E. apply ext_list in E.
    destruct (s_active (cleanup x)).
    + injection H as <-. simpl. apply (x_len _ _ E).
    + apply IH in H. rewrite H. simpl. apply (x_len _ _ E).
Qed.

Lemma len_call f P first st c st' v : vm_call f P first st c = Ok (st', v) ->
  length (s_mends st') = length (s_mends st).
Proof.
  destruct c; simpl; intros H.
  - unfold search in H. inv_bind H. destruct x as [s1 o]. inv_bind H. injection H as <- _.
    apply ext_search_loop in E. apply (x_len _ _ E).
  - unfold search_resolve in H. inv_bind H. destruct x as [s1 o]. inv_bind H. injection H as <- _.
    apply ext_resolve_loop in E. apply (x_len _ _ E).
  - inv_bind H. injection H as <- _. unfold close_out in E. destruct cb.
    + apply ext_close in E. apply (x_len _ _ E).
    + injection E as <-. auto.
  - inv_bind H. injection H as <- _. unfold starts_with in E. inv_bind E. destruct x0.
    + inv_bind E. inv_bind E. injection E as <-. simpl. rewrite repeat_length.
      assert (H1: length (s_mends x0) = length (s_mends st)).
      { apply len_starts_loop in E1. exact E1. }
      unfold close_out in E2. destruct cb.
      * apply ext_close in E2. rewrite (x_len _ _ E2). auto.
      * injection E2 as <-. auto.
    + injection E as <-. auto.
  - injection H as <- _. simpl. apply repeat_length.
Qed.

Lemma len_calls f P first : forall cs st st' vs, vm_calls f P first st cs = Ok (st', vs) ->
  length (s_mends st') = length (s_mends st).
Proof.
  induction cs as [|c cs IH]; intros st st' vs H; simpl in H.
  - injection H as <- _. auto.
  - inv_bind H. destruct x as [s1 v]. inv_bind H. destruct x as [s2 vs2]. injection H as <- _.
    rewrite (IH _ _ _ E0). eapply len_call; eauto.
Qed.

Definition plain_call (c : call) : Prop :=
  match c with CSearch _ _ cb => cb = true | CResolve _ _ cb => cb = true | CClose cb => cb = true | _ => False end.

Lemma plain_call_chain f P first st c st' v : plain_call c -> vm_call f P first st c = Ok (st', v) ->
  exists hs, s_hits st' = s_hits st ++ hs /\ forall l, chain (me st l) (hits_of l hs) (me st' l).
Proof.
  intros Hp H. assert (X: ext (with_cb st true) st').
  { destruct c; simpl in Hp, H; try easy; subst cb.
    - unfold search in H. inv_bind H. destruct x as [s1 o]. inv_bind H. injection H as <- _.
      eapply ext_search_loop; eauto.
    - unfold search_resolve in H. inv_bind H. destruct x as [s1 o]. inv_bind H. injection H as <- _.
      eapply ext_resolve_loop; eauto.
    - inv_bind H. injection H as <- _. unfold close_out in E. eapply ext_close; eauto. }
  destruct X as [_ _ (hs & E & X & _)]. exists hs. split; auto. intros l. apply (X eq_refl l).
Qed.

Lemma plain_calls_chain f P first : forall cs st st' vs, Forall plain_call cs ->
  vm_calls f P first st cs = Ok (st', vs) ->
  exists hs, s_hits st' = s_hits st ++ hs /\ forall l, chain (me st l) (hits_of l hs) (me st' l).
Proof.
  induction cs as [|c cs IH]; intros st st' vs Hp H; simpl in H.
  - injection H as <- _. exists []. rewrite app_nil_r. split; auto. simpl; auto.
  - inversion Hp; subst. inv_bind H. destruct x as [s1 v]. inv_bind H. destruct x as [s2 vs2]. injection H as <- _.
    destruct (plain_call_chain _ _ _ _ _ _ _ H2 E) as (h1 & E1 & C1).
    destruct (IH _ _ _ H3 E0) as (h2 & E2 & C2).
    exists (h1 ++ h2). split. { rewrite E2, E1, app_assoc; auto. }
    intros l. rewrite hits_of_app. eapply chain_app; eauto.
Qed.

(** A new context has reported nothing. *)
Lemma init_state f P first st : vm_init f P = Ok (first, st) ->
  st = mkSt [] [] [] false [] (repeat 0 (N.to_nat ((p_maxLabel P + 1) mod two32))) 0 false [].
Proof.
  unfold vm_init. intros H. inv_bind H. inv_bind H. destruct x0 as [[s1 R1] ot]. injection H as _ <-.
  apply ext_seq in E0. destruct E0 as [C L (hs & EH & _ & Hn)]. simpl in *.
  unfold reset. rewrite L, repeat_length, EH, Hn; auto.
Qed.
