(** The other entry points: resolving, the returned offset, matching at the first byte,
    and creating a context. *)
From Verif Require Import Base VmModel VmSpec VmIdeal VmSim VmSearch VmGeneric.
From Coq Require Import Sorting.Sorted.
Open Scope N_scope.

Definition dead (P : program) (t : thread) : bool := is_fin P (t_pc t) || is_halt P (t_pc t).

Lemma fut_dead F P l w1 w2 o1 o2 t : dead P t = true -> fut F P l w1 o1 t = fut F P l w2 o2 t.
Proof.
  unfold dead. intros H. apply orb_true_iff in H. destruct H as [H|H].
  - rewrite !fut_fin; auto.
  - rewrite !fut_halt; auto.
Qed.

Lemma FA_dead F P l w1 w2 o1 o2 L : Forall (fun t => dead P t = true) L ->
  flat_map (fut F P l w1 o1) L = flat_map (fut F P l w2 o2) L.
Proof.
  induction 1; auto. change (fut F P l w1 o1 x ++ flat_map (fut F P l w1 o1) l0 = fut F P l w2 o2 x ++ flat_map (fut F P l w2 o2) l0).
  rewrite (fut_dead F P l w1 w2 o1 o2), IHForall; auto.
Qed.

Lemma dead_op P t w : nth_error (p_words P) (t_pc t) = Some w -> dead P t = is_dead_op w.
Proof. intros H. unfold dead, is_fin, is_halt, is_dead_op. rewrite H. destruct (w_op w); auto. Qed.

Lemma leftmost_spec P : forall L o r, leftmost_live P L o = Ok r ->
  exists D K, L = D ++ K /\ Forall (fun t => dead P t = true) D /\
    ((K = [] /\ r = o) \/ exists t K', K = t :: K' /\ r = t_start t /\ dead P t = false).
Proof.
  induction L as [|t L IH]; intros o r H; simpl in H.
  - injection H as <-. exists [], []. split; auto.
  - unfold fetch, get in H. destruct (nth_error (p_words P) (t_pc t)) as [w|] eqn:E; [|discriminate]. simpl in H.
    pose proof (dead_op P t w E) as Ed. destruct (is_dead_op w).
    + destruct (IH o r H) as (D & K & -> & HD & HK). exists (t :: D), K. split; auto.
    + injection H as <-. exists [], (t :: L). split; auto. split; auto. right. eauto.
Qed.

(** * Selection and filtering by start *)

Definition before (r : N) (X : list (N * N)) : list (N * N) := filter (fun x => fst x <? r) X.

Lemma before_app r X Y : before r (X ++ Y) = before r X ++ before r Y.
Proof. apply filter_app. Qed.

Lemma before_none r X : (forall x, In x X -> r <= fst x) -> before r X = [].
Proof.
  induction X as [|x X IH]; simpl; intros H; auto. destruct (N.ltb_spec (fst x) r).
  - specialize (H x (or_introl eq_refl)). lia.
  - apply IH. auto.
Qed.

Lemma before_all r X : (forall x, In x X -> fst x < r) -> before r X = X.
Proof.
  induction X as [|x X IH]; simpl; intros H; auto. destruct (N.ltb_spec (fst x) r).
  - f_equal. apply IH. auto.
  - specialize (H x (or_introl eq_refl)). lia.
Qed.

Lemma before_greedy_app r X Z m : (forall x, In x Z -> r <= fst x) ->
  before r (greedy m (X ++ Z)) = before r (greedy m X).
Proof.
  intros H. rewrite greedy_app, before_app, (before_none r (greedy _ Z)), app_nil_r; auto.
  intros x Hx. apply H. eapply greedy_in; eauto.
Qed.

(** * Starts of all matches *)

Section Calls.
Variables (P : program) (A : nat -> option ann) (F : nat).
Hypothesis (W : wf P A F).
Variable fuel : nat.
Hypothesis (Hfuel : (F <= fuel)%nat).
Variable first : list nat.
Hypothesis Hfirst : init_ok P A first.
Hypothesis Hfilter : filter_sound F P first.

Notation SInv := (GInv P A true).
Notation FA l w off := (flat_map (fut F P l w off)).

Lemma fut_in_start l w off t m x : bytes w -> arrive P A (t_label t) m (t_pc t) ->
  In x (fut F P l w off t) -> fst x = t_start t.
Proof. intros Hw Ha Hx. apply (fut_in P A F W l w off t m x Hw Ha Hx). Qed.

Lemma tokr_in_start l w off o t x : bytes w -> tokr P A o t -> In x (fut F P l w off t) -> fst x = t_start t.
Proof.
  intros Hw (_ & [Hh|(Ha & _)]) Hx.
  - rewrite fut_halt in Hx by auto. destruct Hx.
  - eapply fut_in_start; eauto.
Qed.

Lemma new_starts l w off x : bytes w -> In x (FA l w off (new_threads first off)) -> fst x = off.
Proof.
  intros Hw Hx. apply in_flat_map in Hx. destruct Hx as (t & Ht & Hx).
  pose proof (new_tokr P A F W fuel Hfuel first Hfirst off) as HT. rewrite Forall_forall in HT.
  rewrite (tokr_in_start l w off off t x Hw (HT t Ht) Hx).
  unfold new_threads in Ht. apply in_map_iff in Ht. destruct Ht as (pc & <- & _). auto.
Qed.

Lemma all_starts l : forall w off x, bytes w -> In x (all_matches F P first l w off) ->
  off <= fst x /\ fst x < off + N.of_nat (length w).
Proof.
  induction w as [|b w IH]; intros off x Hw Hx; [destruct Hx|].
  change (In x (FA l (b :: w) off (new_threads first off) ++ all_matches F P first l w (off + 1))) in Hx.
  apply in_app_iff in Hx. cbn [length]. destruct Hx as [Hx|Hx].
  - apply new_starts in Hx; auto. lia.
  - inversion Hw; subst. apply IH in Hx; auto. lia.
Qed.

(** The matches of the first [length c] starts. *)
Fixpoint matches_from (l : N) (n : nat) (w : list N) (off : N) : list (N * N) :=
  match n, w with
  | O, _ => []
  | _, [] => []
  | S k, b :: w' => FA l w off (new_threads first off) ++ matches_from l k w' (off + 1)
  end.

Lemma all_matches_split l : forall c w off,
  all_matches F P first l (c ++ w) off =
  matches_from l (length c) (c ++ w) off ++ all_matches F P first l w (off + N.of_nat (length c)).
Proof.
  induction c as [|b c IH]; intros w off.
  - cbn [app length matches_from]. replace (off + N.of_nat 0) with off by lia. destruct w; reflexivity.
  - change (all_matches F P first l ((b :: c) ++ w) off) with
      (FA l ((b :: c) ++ w) off (new_threads first off) ++ all_matches F P first l (c ++ w) (off + 1)).
    rewrite IH. cbn [app length matches_from]. rewrite <- app_assoc. do 3 f_equal. lia.
Qed.

Lemma matches_from_starts l : forall n w off x, bytes w -> In x (matches_from l n w off) ->
  off <= fst x /\ fst x < off + N.of_nat n.
Proof.
  induction n as [|n IH]; intros w off x Hw Hx; [destruct w; destruct Hx|].
  destruct w as [|b w]; [destruct Hx|].
  change (In x (FA l (b :: w) off (new_threads first off) ++ matches_from l n w (off + 1))) in Hx.
  apply in_app_iff in Hx. destruct Hx as [Hx|Hx].
  - apply new_starts in Hx; auto. lia.
  - inversion Hw; subst. apply IH in Hx; auto. lia.
Qed.

Lemma before_all_matches l c w off : bytes c -> bytes w ->
  before (off + N.of_nat (length c)) (all_matches F P first l (c ++ w) off) =
  matches_from l (length c) (c ++ w) off.
Proof.
  intros Hc Hw. rewrite all_matches_split, before_app.
  rewrite (before_none _ (all_matches _ _ _ _ _ _)), app_nil_r.
  - apply before_all. intros x Hx. eapply matches_from_starts in Hx; [lia|]. apply Forall_app; auto.
  - intros x Hx. apply all_starts in Hx; auto. lia.
Qed.

(** * The returned offset *)

Lemma returned_ok off st r l rest : SInv off st -> leftmost_live P (s_active st) off = Ok r -> bytes rest ->
  before r (greedy (me st l) (FA l rest off (s_active st) ++ all_matches F P first l rest off)) =
  before r (greedy (me st l) (FA l [] off (s_active st))) /\
  before r (greedy (me st l) (FA l rest off (s_active st))) =
  before r (greedy (me st l) (FA l [] off (s_active st))) /\ r <= off.
Proof.
  intros I HL Hr. destruct (leftmost_spec P _ _ _ HL) as (D & K & EA & HD & HK).
  pose proof (q_srt _ _ _ _ _ I) as HS. pose proof (q_old _ _ _ _ _ I eq_refl) as HO.
  pose proof (q_active _ _ _ _ _ I) as HT. rewrite EA in *.
  apply srt_app in HS. destruct HS as (_ & HS & _).
  rewrite Forall_app in HO, HT. destruct HO as (_ & HO), HT as (_ & HT). rewrite Forall_forall in HT, HO.
  assert (HKr: forall t, In t K -> r <= t_start t).
  { intros t Ht. destruct HK as [(-> & _)|(t0 & K' & -> & -> & _)]; [easy|].
    destruct Ht as [<-|Ht]; [lia|]. change (t0 :: K') with ([t0] ++ K') in HS.
    apply srt_app in HS. destruct HS as (_ & _ & HS). apply HS; auto. left; auto. }
  assert (Hro: r <= off).
  { destruct HK as [(_ & ->)|(t0 & K' & -> & -> & _)]; [lia|]. specialize (HO t0 (or_introl eq_refl)). simpl in HO. lia. }
  assert (HKx: forall w, bytes w -> forall x, In x (FA l w off K) -> r <= fst x).
  { intros w Hw x Hx. apply in_flat_map in Hx. destruct Hx as (t & Ht & Hx).
    rewrite (tokr_in_start l w off off t x); auto. }
  rewrite !flat_map_app. rewrite (FA_dead F P l rest [] off off D HD).
  split; [|split; auto].
  - rewrite <- app_assoc, !before_greedy_app; auto.
    + apply HKx. constructor.
    + intros x Hx. apply in_app_iff in Hx. destruct Hx as [Hx|Hx]; [eapply HKx; eauto|].
      apply all_starts in Hx; auto. lia.
  - rewrite !before_greedy_app; auto; apply HKx; auto. constructor.
Qed.

(** * Resolving *)

Lemma thread_dead st R t b off st' R' : dead P t = true ->
  exec_thread fuel P st R t b off = Ok (st', R') ->
  Forall (fun t => dead P t = true) (s_next st) -> Forall (fun t => dead P t = true) (s_next st').
Proof.
  intros Hd H HN. unfold dead in Hd. apply orb_true_iff in Hd. unfold exec_thread in H. destruct Hd as [Hd|Hd].
  2:{ rewrite exec_byte_halt in H by auto. simpl in H. injection H as <- _. auto. }
  rewrite exec_byte_fin in H by auto. simpl in H. inv_bind H. destruct x as [[s1 R1] o].
  assert (Hs: s_next s1 = s_next st /\ forall p, o = Some p -> p = t).
  { unfold ep_seq in E. inv_bind E. destruct x. { injection E as <- <- <-. split; auto. discriminate. }
    destruct fuel as [|f]; [discriminate|]. simpl in E. unfold is_fin in Hd. unfold fetch, get in E.
    destruct (nth_error (p_words P) (t_pc t)) as [w|]; [|discriminate]. simpl in E.
    destruct (w_op w); try discriminate. unfold exec_finish in E. inv_bind E. destruct x.
    { injection E as <- <- <-. split; auto. congruence. }
    inv_bind E. destruct (_ <=? _).
    - inv_bind E. injection E as <- <- <-. split; [|discriminate]. unfold emit. simpl. destruct (s_cb st); auto.
    - injection E as <- <- <-. split; auto. discriminate. }
  destruct Hs as (Hs1 & Hs2). destruct o as [p|].
  - inv_bind H. injection H as <- _. rewrite (Hs2 p eq_refl) in E0. unfold push_next in E0. inv_bind E0.
    injection E0 as <-. simpl.
    assert (Hm: forall s l s', markLive P s l = Ok s' -> s_next s' = s_next s).
    { clear. intros s l s' H. unfold markLive in H. destruct (_ =? _); [injection H as <-; auto|].
      inv_bind H. destruct x; injection H as <-; auto. }
    rewrite (Hm _ _ _ E1).
    rewrite Hs1. apply Forall_app. split; auto. constructor; auto. unfold dead. rewrite Hd. auto.
  - injection H as <- _. rewrite Hs1; auto.
Qed.

Lemma tokr_fetch off t : tokr P A off t -> exists w, fetch P (t_pc t) = Ok w /\ dead P t = is_dead_op w.
Proof.
  intros (_ & [Hh|(Ha & _)]).
  - unfold is_halt in Hh. unfold fetch, get. destruct (nth_error (p_words P) (t_pc t)) as [w|] eqn:E; [|discriminate].
    exists w. split; auto. apply dead_op; auto.
  - destruct (arrive_inv P A F W _ _ _ Ha) as (a & w & _ & Hw & _). exists w. unfold fetch, get. rewrite Hw.
    split; auto. apply dead_op; auto.
Qed.

Lemma run_resolve_ok off b w : off + 1 < two64 -> b < 256 -> bytes w -> forall T st had,
  Inv P A off st -> Forall (tokr P A off) T ->
  (forall c, In c (s_checks st) -> Cov P A F off w st c) ->
  exists st' had', run_resolve (length T) fuel P st T b off had = Ok (st', had') /\
    spost P A F off b w T st [] st' [] /\
    (had' = false -> had = false /\
      (Forall (fun t => dead P t = true) (s_next st) -> Forall (fun t => dead P t = true) (s_next st'))).
Proof.
  intros Ho Hb Hw T. remember (length T) as n eqn:Hn. revert T Hn.
  induction n as [|n IH]; intros T Hn st had I HT HC.
  - destruct T; [|discriminate]. simpl. exists st, had. split; auto. split; auto. constructor; auto.
    exists []. rewrite app_nil_r. split; auto.
  - destruct T as [|t T]; [discriminate|]. simpl in Hn. injection Hn as Hn.
    inversion HT; subst. simpl.
    destruct (tokr_fetch off t) as (wd & Ew & Ed); auto. rewrite Ew. simpl.
    destruct (thread_ok P A F W fuel Hfuel off b w Ho Hb Hw st T t) as (st1 & T1 & E1 & [I1 A1 R1 L1 C1 S1 (h1 & J1 & Q1)]); auto.
    rewrite E1. simpl.
    destruct (IH T1 ltac:(lia) st1 (had || negb (is_dead_op wd)) I1 R1 C1) as (st2 & had2 & E2 & [I2 A2 R2 L2 C2 S2 (h2 & J2 & Q2)] & D2).
    exists st2, had2. split; auto. split.
    + constructor; auto.
      * congruence.
      * intros H. apply S2. rewrite app_nil_r in *. apply S1; auto.
      * exists (h1 ++ h2). split. { rewrite J2, J1, app_assoc; auto. }
        intros l X HX. rewrite hits_of_app, <- app_assoc. specialize (Q2 l X HX). rewrite app_nil_r in Q2.
        rewrite <- Q2. specialize (Q1 l X HX). rewrite app_nil_r. exact Q1.
    + intros Hf. destruct (D2 Hf) as (D3 & D4). apply orb_false_iff in D3. destruct D3 as (D3 & D5).
      split; auto. intros HN. apply D4. eapply thread_dead; eauto. rewrite Ed. apply negb_false_iff in D5. auto.
Qed.

Definition all_dead (st : vmst) : Prop := Forall (fun t => dead P t = true) (s_active st).

Lemma resolve_loop_ok : forall buf off st had, off + N.of_nat (length buf) < two64 -> bytes buf ->
  SInv off st -> (had = false -> all_dead st) ->
  exists st' off', resolve_loop fuel P st buf off had = Ok (st', off') /\
    off <= off' /\ off' <= off + N.of_nat (length buf) /\
    SInv off' st' /\ (off' = off + N.of_nat (length buf) \/ all_dead st') /\
    exists hs, s_hits st' = s_hits st ++ hs /\
    forall l rest, bytes rest ->
      greedy (me st l) (FA l (buf ++ rest) off (s_active st)) =
      hits_of l hs ++ greedy (me st' l) (FA l rest (off + N.of_nat (length buf)) (s_active st')).
Proof.
  induction buf as [|b buf IH]; intros off st had Ho Hbuf I Hhad.
  - simpl. replace (off + N.of_nat 0) with off by lia. exists st, off. repeat (split; [auto; lia|]).
    exists []. rewrite app_nil_r. split; auto.
  - assert (Hb: b < 256) by (inversion Hbuf; auto).
    assert (Hbuf': bytes buf) by (inversion Hbuf; auto).
    assert (Stop: all_dead st -> exists st' off', Ok (st, off) = Ok (st', off') /\
    off <= off' /\ off' <= off + N.of_nat (length (b :: buf)) /\
    SInv off' st' /\ (off' = off + N.of_nat (length (b :: buf)) \/ all_dead st') /\
    exists hs, s_hits st' = s_hits st ++ hs /\
    forall l rest, bytes rest ->
      greedy (me st l) (FA l ((b :: buf) ++ rest) off (s_active st)) =
      hits_of l hs ++ greedy (me st' l) (FA l rest (off + N.of_nat (length (b :: buf))) (s_active st'))).
    { intros Hd. exists st, off. split; auto. split; [lia|]. split; [lia|]. split; auto. split; auto.
      exists []. rewrite app_nil_r. split; auto. intros l rest Hr. simpl app.
      f_equal. apply FA_dead; auto. }
    assert (Hcase: all_dead st /\ resolve_loop fuel P st (b :: buf) off had = Ok (st, off) \/
      resolve_loop fuel P st (b :: buf) off had =
        ('(st1, had1) <- run_resolve (length (s_active st)) fuel P st (s_active st) b off false ;;
         resolve_loop fuel P (cleanup st1) buf ((off + 1) mod two64) had1)).
    { cbn [resolve_loop]. destruct (s_active st) eqn:EA.
      - left. split; auto. unfold all_dead. rewrite EA. constructor.
      - destruct had; auto. }
    destruct Hcase as [(Hd & Hcase)|Hcase]; rewrite Hcase; [apply Stop; auto|]. clear Hcase.
    cbn [length] in *.
    assert (Ho1: off + 1 < two64) by lia.
    assert (Run: forall w, bytes w -> exists st1 had1, run_resolve (length (s_active st)) fuel P st (s_active st) b off false = Ok (st1, had1) /\
       spost P A F off b w (s_active st) st [] st1 [] /\
       (had1 = false -> false = false /\
      (Forall (fun t => dead P t = true) (s_next st) -> Forall (fun t => dead P t = true) (s_next st1)))).
    { intros w Hw. apply run_resolve_ok; auto.
      - eapply sinv_inv; eauto.
      - apply (q_active _ _ _ _ _ I).
      - rewrite (q_checks _ _ _ _ _ I). intros c []. }
    destruct (Run buf Hbuf') as (st1 & had1 & E1 & [I1 A1 R1 L1 C1 S1 (h1 & J1 & _)] & D1).
    rewrite E1. cbn [bind]. rewrite (N.mod_small (off + 1)) by auto.
    assert (I1c: SInv (off + 1) (cleanup st1)).
    { apply (frame_end P A F fuel Hfuel off st1 (s_next st1)); auto.
      - rewrite !app_nil_r in S1. apply S1. rewrite (q_next _ _ _ _ _ I). apply (q_srt _ _ _ _ _ I).
      - intros t Ht. pose proof (i_next _ _ _ _ I1) as HN. rewrite Forall_forall in HN. apply (HN t Ht). }
    destruct (IH (off + 1) (cleanup st1) had1) as (st' & off' & E' & B1 & B2 & I' & K' & h2 & J2 & Q2); auto; [lia| |].
    { intros Hf. destruct (D1 Hf) as (_ & D2). apply D2. rewrite (q_next _ _ _ _ _ I). constructor. }
    exists st', off'. split; auto.
    replace (off + 1 + N.of_nat (length buf)) with (off + N.of_nat (S (length buf))) in * by lia.
    split; [lia|]. split; [lia|]. split; auto. split; auto.
    exists (h1 ++ h2). split. { rewrite J2. simpl. rewrite J1, app_assoc; auto. }
    intros l rest Hrest.
    assert (Hbr: bytes (buf ++ rest)) by (apply Forall_app; auto).
    destruct (Run (buf ++ rest) Hbr) as (st1' & had1' & E1' & [_ _ _ _ _ _ (h1' & J1' & Q1')] & _).
    rewrite E1 in E1'. injection E1' as <- <-. rewrite J1 in J1'. apply app_inv_head in J1'. subst h1'.
    rewrite hits_of_app, <- app_assoc, <- Q2 by auto.
    specialize (Q1' l [] (Forall_nil _)). rewrite (q_next _ _ _ _ _ I) in Q1'.
    unfold Fn, Fr in Q1'. simpl flat_map in Q1' at 1. rewrite !app_nil_r in Q1'. exact Q1'.
Qed.

Lemma sinv_later off off' st : SInv off st -> off <= off' -> SInv off' st.
Proof.
  intros [] Hle. constructor; auto.
  - eapply Forall_impl; [|exact q_active]. intros t (H1 & H2). split; [lia|].
    destruct H2 as [H2|(H2 & H3)]; auto. right. split; auto. intros Hf. specialize (H3 Hf). lia.
  - intros _. eapply Forall_impl; [|exact (q_old eq_refl)]. simpl. intros t Ht. lia.
  - intros l. specialize (q_mele l). lia.
Qed.

Lemma resolve_ok buf off st : off + N.of_nat (length buf) < two64 -> bytes buf -> SInv off st ->
  exists st' r, search_resolve fuel P st buf off true = Ok (st', r) /\
    SInv (off + N.of_nat (length buf)) st' /\
    exists hs, s_hits st' = s_hits st ++ hs /\
    forall l rest, bytes rest ->
      greedy (me st l) (FA l (buf ++ rest) off (s_active st)) =
      hits_of l hs ++ greedy (me st' l) (FA l rest (off + N.of_nat (length buf)) (s_active st')).
Proof.
  intros Ho Hb I. pose proof (with_cb_sinv P A off st I) as I0.
  destruct (resolve_loop_ok buf off (with_cb st true) true Ho Hb I0) as (st' & o' & E & H1 & H2 & I' & K & hs & J & Q).
  { discriminate. }
  unfold search_resolve. rewrite E. cbn [bind].
  destruct (leftmost_ok P A F W (s_active st') o' o' (q_active _ _ _ _ _ I')) as (r & Er). rewrite Er. cbn [bind].
  exists st', r. split; auto. split. { eapply sinv_later; eauto. }
  exists hs. split; auto.
Qed.

(** Resolving in buffers. *)
Fixpoint resolve_calls (off : N) (chunks : list (list N)) : list call :=
  match chunks with
  | [] => []
  | c :: r => CResolve c off true :: resolve_calls (off + N.of_nat (length c)) r
  end.

Lemma resolves_ok : forall chunks off st, off + N.of_nat (length (concat chunks)) < two64 ->
  bytes (concat chunks) -> SInv off st ->
  exists st' vs, vm_calls fuel P first st (resolve_calls off chunks) = Ok (st', vs) /\
    SInv (off + N.of_nat (length (concat chunks))) st' /\
    exists hs, s_hits st' = s_hits st ++ hs /\
    forall l rest, bytes rest ->
      greedy (me st l) (FA l (concat chunks ++ rest) off (s_active st)) =
      hits_of l hs ++
      greedy (me st' l) (FA l rest (off + N.of_nat (length (concat chunks))) (s_active st')).
Proof.
  induction chunks as [|c chunks IH]; intros off st Ho Hb I; simpl.
  - replace (off + N.of_nat 0) with off by lia. exists st, []. split; auto. split; auto.
    exists []. rewrite app_nil_r. split; auto.
  - simpl in Ho, Hb. rewrite app_length in *. apply Forall_app in Hb. destruct Hb as (Hb1 & Hb2).
    destruct (resolve_ok c off st) as (st1 & r & E1 & I1 & h1 & J1 & Q1); auto; [lia|].
    rewrite E1. simpl.
    destruct (IH (off + N.of_nat (length c)) st1) as (st2 & vs & E2 & I2 & h2 & J2 & Q2); auto; [lia|].
    rewrite E2. simpl.
    replace (off + N.of_nat (length c) + N.of_nat (length (concat chunks)))
      with (off + N.of_nat (length c + length (concat chunks))) in * by lia.
    exists st2, (r :: vs). split; auto. split; auto.
    exists (h1 ++ h2). split. { rewrite J2, J1, app_assoc; auto. }
    intros l rest Hr. rewrite ?app_length. rewrite hits_of_app, <- !app_assoc, <- Q2 by auto.
    rewrite <- Q1 by (apply Forall_app; auto). auto.
Qed.

(** * Selecting before a point *)

Lemma greedy_before l c w off : bytes c -> bytes w -> forall m,
  greedy m (before (off + N.of_nat (length c)) (all_matches F P first l (c ++ w) off)) =
  before (off + N.of_nat (length c)) (greedy m (all_matches F P first l (c ++ w) off)).
Proof.
  intros Hc Hw m. rewrite before_all_matches, all_matches_split by auto.
  rewrite before_greedy_app by (intros x Hx; apply all_starts in Hx; auto; lia).
  rewrite before_all; auto. intros x Hx. apply greedy_in, matches_from_starts in Hx; [lia|].
  apply Forall_app; auto.
Qed.

(** * Sessions: search, then resolve, then close out *)

Lemma fresh_chunks cs off st : off + N.of_nat (length (concat cs)) < two64 -> bytes (concat cs) ->
  fresh_state P st ->
  exists st1 vs, vm_calls fuel P first st (chunk_calls off cs) = Ok (st1, vs) /\
    SInv (off + N.of_nat (length (concat cs))) (with_cb st1 true) /\ (cs <> [] -> with_cb st1 true = st1) /\
    exists hs, s_hits st1 = s_hits st ++ hs /\
    forall l rest, bytes rest ->
      greedy 0 (all_matches F P first l (concat cs ++ rest) off) =
      hits_of l hs ++
      greedy (me st1 l) (FA l rest (off + N.of_nat (length (concat cs))) (s_active st1)
                         ++ all_matches F P first l rest (off + N.of_nat (length (concat cs)))).
Proof.
  intros Ho Hb Hf.
  destruct (chunks_ok P A F W fuel Hfuel first Hfirst Hfilter cs off (with_cb st true) Ho Hb (fresh_sinv P A F fuel Hfuel off st Hf))
    as (st1 & vs & E1 & I1 & h1 & J1 & Q1).
  assert (HQ: forall l rest, bytes rest ->
      greedy 0 (all_matches F P first l (concat cs ++ rest) off) =
      hits_of l h1 ++
      greedy (me st1 l) (FA l rest (off + N.of_nat (length (concat cs))) (s_active st1)
                         ++ all_matches F P first l rest (off + N.of_nat (length (concat cs))))).
  { intros l rest Hr. rewrite <- Q1 by auto. destruct Hf as (Hact & Hf).
    cbn [with_cb s_active]. rewrite Hact. simpl flat_map. simpl app.
    change (me (with_cb st true) l) with (me st l). rewrite (fresh_me P); auto. split; auto. }
  destruct cs as [|c cs].
  - cbn [chunk_calls vm_calls] in E1. injection E1 as <- <-. exists st, []. split; auto. split; auto. split; [congruence|].
    exists h1. split; auto.
  - exists st1, vs. split; [rewrite <- E1; reflexivity|].
    assert (with_cb st1 true = st1) as ->. { pose proof (q_cb _ _ _ _ _ I1). destruct st1; simpl in *; subst; auto. }
    split; auto. split; auto. exists h1. split; auto.
Qed.

Lemma session_ok cs rs off st :
  off + N.of_nat (length (concat cs ++ concat rs)) < two64 -> bytes (concat cs) -> bytes (concat rs) ->
  fresh_state P st ->
  exists st' vs, vm_calls fuel P first st
      (chunk_calls off cs ++ resolve_calls (off + N.of_nat (length (concat cs))) rs ++ [CClose true]) = Ok (st', vs) /\
    exists hs, s_hits st' = s_hits st ++ hs /\
      forall l, hits_of l hs = greedy 0 (before (off + N.of_nat (length (concat cs)))
                                          (all_matches F P first l (concat cs ++ concat rs) off)).
Proof.
  intros Ho Hb Hb2 Hf. rewrite app_length in Ho.
  destruct (fresh_chunks cs off st) as (st1 & vs & E1 & I1 & Ecb & h1 & J1 & Q1); auto; [lia|].
  rewrite vm_calls_app, E1. cbn [bind]. rewrite vm_calls_app.
  destruct (resolves_ok rs (off + N.of_nat (length (concat cs))) (with_cb st1 true)) as (st2 & vs2 & E2 & I2 & h2 & J2 & Q2); auto; [lia|].
  assert (EX: exists st2', vm_calls fuel P first st1 (resolve_calls (off + N.of_nat (length (concat cs))) rs) = Ok (st2', vs2) /\ with_cb st2' true = st2).
  { destruct rs as [|c r].
    - cbn [resolve_calls vm_calls] in *. injection E2 as <- <-. exists st1. auto.
    - exists st2. split; [rewrite <- E2; reflexivity|]. pose proof (q_cb _ _ _ _ _ I2). destruct st2; simpl in *; subst; auto. }
  destruct EX as (st2' & E2' & Ecb2). rewrite E2'. cbn [bind vm_calls vm_call]. unfold close_out. rewrite Ecb2.
  destruct (close_ok P A F W fuel Hfuel (s_active st2) (off + N.of_nat (length (concat cs)) + N.of_nat (length (concat rs))) st2) as (st3 & E3 & h3 & J3 & Q3);
    try apply I2; auto; [lia|].
  rewrite E3. cbn [bind]. eexists st3, _. split; [reflexivity|].
  exists (h1 ++ h2 ++ h3). split. { rewrite J3, J2. simpl. rewrite J1, <- !app_assoc; auto. }
  intros l. rewrite !hits_of_app, Q3, greedy_before by auto.
  specialize (Q2 l [] (Forall_nil _)). rewrite app_nil_r in Q2. rewrite <- Q2.
  change (me (with_cb st1 true) l) with (me st1 l). cbn [with_cb s_active].
  rewrite Q1 by auto. rewrite before_app. f_equal.
  - symmetry. apply before_all. intros x Hx. specialize (Q1 l [] (Forall_nil _)). rewrite app_nil_r in Q1.
    assert (Hin: In x (all_matches F P first l (concat cs) off)).
    { apply (greedy_in _ 0). rewrite Q1. apply in_app_iff; auto. }
    apply all_starts in Hin; auto. lia.
  - rewrite before_greedy_app by (intros x Hx; apply all_starts in Hx; auto; lia).
    symmetry. apply before_all. intros x Hx. apply greedy_in in Hx. apply in_flat_map in Hx. destruct Hx as (t & Ht & Hx).
    pose proof (q_old _ _ _ _ _ I1 eq_refl) as HO. pose proof (q_active _ _ _ _ _ I1) as HT.
    rewrite Forall_forall in HO, HT. simpl in HO, HT. rewrite (tokr_in_start _ _ _ _ _ _ Hb2 (HT t Ht) Hx). auto.
Qed.

(** The offset returned by the last search call. *)
Lemma returned_session cs c off st st1 vs r : off + N.of_nat (length (concat (cs ++ [c]))) < two64 ->
  bytes (concat (cs ++ [c])) -> fresh_state P st ->
  vm_calls fuel P first st (chunk_calls off (cs ++ [c])) = Ok (st1, vs ++ [r]) ->
  leftmost_live P (s_active st1) (off + N.of_nat (length (concat (cs ++ [c])))) = Ok r.
Proof.
  intros Ho Hb Hf H. rewrite concat_app, app_length in *. simpl in *. rewrite app_nil_r in *.
  apply Forall_app in Hb. destruct Hb as (Hb1 & Hb2).
  assert (EC: chunk_calls off (cs ++ [c]) = chunk_calls off cs ++ [CSearch c (off + N.of_nat (length (concat cs))) true]).
  { clear. revert off. induction cs as [|x cs IH]; intros off; simpl; [repeat f_equal; lia|].
    rewrite IH, app_length. do 4 f_equal. lia. }
  rewrite EC, vm_calls_app in H.
  destruct (fresh_chunks cs off st) as (st0 & vs0 & E0 & I0 & _); auto; [lia|].
  rewrite E0 in H. cbn [bind vm_calls vm_call] in H.
  destruct (search_ok P A F W fuel Hfuel first Hfirst Hfilter c (off + N.of_nat (length (concat cs))) (with_cb st0 true))
    as (st2 & r2 & E2 & L2 & _); auto; [lia|].
  change (search fuel P first (with_cb st0 true)) with (search fuel P first st0) in E2.
  rewrite E2 in H. cbn [bind] in H. injection H as <- H. apply app_inj_tail in H. destruct H as (_ & <-).
  replace (off + N.of_nat (length (concat cs) + length c)) with (off + N.of_nat (length (concat cs)) + N.of_nat (length c)) by lia.
  auto.
Qed.

(** * Matching at the first byte only *)

Lemma starts_loop_ok : forall buf off st old, off + N.of_nat (length buf) < two64 -> bytes buf ->
  GInv P A old off st ->
  exists st' old' off', starts_loop fuel P st buf off = Ok st' /\ GInv P A old' off' st' /\ off' < two64 /\
    exists hs, s_hits st' = s_hits st ++ hs /\
    forall l, greedy (me st l) (FA l buf off (s_active st)) =
      hits_of l hs ++ greedy (me st' l) (FA l [] off' (s_active st')).
Proof.
  induction buf as [|b buf IH]; intros off st old Ho Hb I.
  - simpl. exists st, old, off. split; auto. split; auto. split; [simpl in Ho; lia|].
    exists []. rewrite app_nil_r. split; auto.
  - cbn [length] in Ho. inversion Hb; subst. cbn [starts_loop].
    assert (Ho1: off + 1 < two64) by lia.
    destruct (old_ok P A F W fuel Hfuel old off b buf st Ho1) as (st1 & E1 & [I1 A1 R1 L1 C1 S1 (h1 & J1 & Q1)]); auto.
    rewrite E1. cbn [bind].
    assert (I1c: SInv (off + 1) (cleanup st1)).
    { apply (frame_end P A F fuel Hfuel off st1 (s_next st1)); auto.
      - rewrite !app_nil_r in S1. apply S1. rewrite (q_next _ _ _ _ _ I). apply (q_srt _ _ _ _ _ I).
      - intros t Ht. pose proof (i_next _ _ _ _ I1) as HN. rewrite Forall_forall in HN. apply (HN t Ht). }
    assert (Q1': forall l, greedy (me st l) (FA l (b :: buf) off (s_active st)) =
       hits_of l h1 ++ greedy (me (cleanup st1) l) (FA l buf (off + 1) (s_active (cleanup st1)))).
    { intros l. specialize (Q1 l [] (Forall_nil _)). rewrite (q_next _ _ _ _ _ I) in Q1.
      unfold Fn, Fr in Q1. simpl flat_map in Q1 at 1. rewrite !app_nil_r in Q1. exact Q1. }
    destruct (s_active (cleanup st1)) as [|t0 L0] eqn:EA.
    + exists (cleanup st1), true, (off + 1). split; auto. split; auto. split; auto.
      exists h1. split; auto. intros l. rewrite Q1', EA. auto.
    + rewrite (N.mod_small (off + 1)) by auto.
      destruct (IH (off + 1) (cleanup st1) true) as (st' & old' & off' & E' & I' & Ho' & h2 & J2 & Q2); auto; [lia|].
      exists st', old', off'. split; auto. split; auto. split; auto.
      exists (h1 ++ h2). split. { rewrite J2. simpl. rewrite J1, app_assoc; auto. }
      intros l. rewrite hits_of_app, <- app_assoc, <- Q2, EA, Q1'. auto.
Qed.

Lemma greedy_same_start s X : lists_ok X -> (forall x, In x X -> fst x = s) -> greedy 0 X = firstn 1 X.
Proof.
  destruct X as [|[a e] X]; auto. intros HX HS. simpl.
  inversion HX; subst. simpl in *. destruct (N.leb_spec 0 a); [|lia].
  rewrite (proj1 (greedy_skip X e ltac:(intros x Hx; rewrite (HS x (or_intror Hx)), <- (HS (a,e) (or_introl eq_refl)); simpl; lia))).
  auto.
Qed.

Definition starts_guard (buf : list N) : bool :=
  (length buf =? 1)%nat || (p_filterOff P + 1 <? N.of_nat (length buf)).

Lemma starts_ok buf off st : off + N.of_nat (length buf) < two64 -> bytes buf -> fresh_state P st ->
  exists st', starts_with fuel P first st buf off true = Ok st' /\ fresh_state P st' /\
    exists hs, s_hits st' = s_hits st ++ hs /\
    forall l, hits_of l hs = if starts_guard buf then firstn 1 (FA l buf off (new_threads first off)) else [].
Proof.
  intros Ho Hb Hf. unfold starts_with, starts_guard.
  assert (Pass: exists st', (
    st1 <- starts_loop fuel P (with_active (with_cb st true) (s_active (with_cb st true) ++ new_threads first off)) buf off ;;
    st2 <- close_out P st1 true ;; Ok (reset st2)) = Ok st' /\ fresh_state P st' /\
    exists hs, s_hits st' = s_hits st ++ hs /\
    forall l, hits_of l hs = firstn 1 (FA l buf off (new_threads first off))).
  { set (st0 := with_active _ _).
    assert (I: GInv P A false off st0).
    { pose proof (fresh_sinv P A F fuel Hfuel off st Hf) as []. destruct Hf as (Hact & _).
      subst st0. cbn [with_cb s_active] in *. rewrite Hact. constructor; simpl; auto.
      - apply (new_tokr P A F W fuel Hfuel first Hfirst).
      - discriminate.
      - apply new_srt. }
    destruct (starts_loop_ok buf off st0 false Ho Hb I) as (st1 & old' & off' & E1 & I1 & Ho' & h1 & J1 & Q1).
    rewrite E1. cbn [bind]. unfold close_out.
    assert (with_cb st1 true = st1) as ->. { pose proof (q_cb _ _ _ _ _ I1). destruct st1; simpl in *; subst; auto. }
    destruct (close_ok P A F W fuel Hfuel (s_active st1) off' st1) as (st2 & E2 & h2 & J2 & Q2);
      try apply I1; auto.
    rewrite E2. cbn [bind]. eexists. split; [reflexivity|]. split.
    - assert (EL: length (s_mends st2) = N.to_nat (p_maxLabel P + 1)).
      { apply ext_close in E2. rewrite (x_len _ _ E2). apply I1. }
      unfold fresh_state, reset. simpl. rewrite EL. repeat split; auto.
    - exists (h1 ++ h2). split. { simpl. rewrite J2, J1, <- app_assoc. auto. }
      intros l. rewrite hits_of_app, Q2, <- Q1. subst st0.
      destruct Hf as (Hact & Hf). cbn [with_cb with_active s_active]. rewrite Hact. simpl app.
      change (me (with_active (with_cb st true) (new_threads first off)) l) with (me st l).
      rewrite (fresh_me P) by (split; auto).
      apply (greedy_same_start off).
      + eapply new_lists; eauto.
      + intros x Hx. eapply new_starts; eauto. }
  assert (Skip: exists st', Ok (with_cb st true) = Ok st' /\ fresh_state P st' /\
    exists hs, s_hits st' = s_hits st ++ hs /\ forall l, hits_of l hs = []).
  { exists (with_cb st true). split; auto. split; auto. exists []. rewrite app_nil_r. split; auto. }
  destruct ((length buf =? 1)%nat) eqn:E1; [simpl; auto|].
  destruct (p_filterOff P + 1 <? N.of_nat (length buf)) eqn:E2; simpl orb; [|simpl; auto].
  apply N.ltb_lt in E2.
  destruct (filter_pass P buf) as [[|]| | |] eqn:E3; cbn [bind]; auto.
  - destruct Skip as (st' & E & Hf' & hs & J & Q). exists st'. split; auto. split; auto. exists hs. split; auto.
    intros l. rewrite Q. rewrite (Hfilter buf off l Hb E2 E3). auto.
  - exfalso. clear - E2 E3. unfold filter_pass, get in E3.
    destruct (nth_error buf (N.to_nat (p_filterOff P))) eqn:X1; [|apply nth_error_None in X1; lia]. simpl in E3.
    destruct (nth_error buf (N.to_nat (p_filterOff P) + 1)) eqn:X2; [|apply nth_error_None in X2; lia]. discriminate.
  - exfalso. clear - E2 E3. unfold filter_pass, get in E3.
    destruct (nth_error buf (N.to_nat (p_filterOff P))) eqn:X1; simpl in E3; [|discriminate].
    destruct (nth_error buf (N.to_nat (p_filterOff P) + 1)) eqn:X2; discriminate.
  - exfalso. clear - E2 E3. unfold filter_pass, get in E3.
    destruct (nth_error buf (N.to_nat (p_filterOff P))) eqn:X1; simpl in E3; [|discriminate].
    destruct (nth_error buf (N.to_nat (p_filterOff P) + 1)) eqn:X2; discriminate.
Qed.

(** * Bounds on matches *)

Lemma fut_bound l : forall w off t m x, bytes w -> arrive P A (t_label t) m (t_pc t) ->
  is_fin P (t_pc t) = false -> In x (fut F P l w off t) ->
  snd x <= off + N.of_nat (length w) /\ l <= p_maxLabel P.
Proof.
  induction w as [|b w IH]; intros off t m x Hb Harr Hf Hx.
  - simpl in Hx. rewrite Hf in Hx. destruct Hx.
  - rewrite fut_unfold in Hx by auto. inversion Hb; subst. cbn [length].
    destruct (exec_byte_ok P A F W t m b) as (o & Ho & Ht1); auto. rewrite Ho in Hx.
    destruct o as [t1|]; [|easy]. destruct (Ht1 t1 eq_refl) as (E & Harr1).
    assert (El: t_label t1 = t_label t) by (rewrite E; auto).
    apply in_flat_map in Hx. destruct Hx as (p & Hp & Hx).
    rewrite <- El in Harr1.
    apply (il_arrive P A F W t1 false) in Hp; auto; [|discriminate].
    destruct Hp as (Q1 & Q2 & Q3 & Q4 & Q5).
    destruct (is_fin P (t_pc p)) eqn:Hfp.
    + rewrite fut_fin in Hx by auto. destruct (N.eqb_spec (t_label p) l) as [El2|]; [|easy].
      destruct Hx as [<-|[]]. simpl. rewrite Q5 by auto. split; [lia|].
      destruct (arrive_inv P A F W _ _ _ Q1) as (a & wd & _ & _ & _ & _ & _ & _ & HH). rewrite Hfp in HH. lia.
    + eapply IH in Hx; eauto. lia.
Qed.

Lemma new_bound l w off x : bytes w -> In x (FA l w off (new_threads first off)) ->
  fst x = off /\ off < snd x /\ snd x <= off + N.of_nat (length w) /\ l <= p_maxLabel P.
Proof.
  intros Hw Hx. split; [eapply new_starts; eauto|].
  apply in_flat_map in Hx. destruct Hx as (t & Ht & Hx).
  unfold new_threads in Ht. apply in_map_iff in Ht. destruct Ht as (pc & <- & Hpc).
  unfold init_ok in Hfirst. rewrite Forall_forall in Hfirst. specialize (Hfirst pc Hpc).
  set (t := mkT pc off NONE NOLABEL false) in *.
  assert (Hf: is_fin P (t_pc t) = false).
  { destruct (is_fin P (t_pc t)) eqn:Hf; auto.
    destruct (arrive_inv P A F W _ _ _ Hfirst) as (a & wd & _ & _ & _ & _ & _ & _ & HH). simpl in Hf. rewrite Hf in HH.
    pose proof (max_lt_nolabel P A F W). lia. }
  destruct (fut_in P A F W l w off t false x Hw Hfirst Hx) as (_ & H2 & _). rewrite Hf in H2.
  destruct (fut_bound l w off t false x Hw Hfirst Hf Hx). auto.
Qed.

Lemma all_bound l : forall w off x, bytes w -> In x (all_matches F P first l w off) ->
  off <= fst x /\ fst x < snd x /\ snd x <= off + N.of_nat (length w) /\ l <= p_maxLabel P.
Proof.
  induction w as [|b w IH]; intros off x Hw Hx; [destruct Hx|].
  change (In x (FA l (b :: w) off (new_threads first off) ++ all_matches F P first l w (off + 1))) in Hx.
  apply in_app_iff in Hx. cbn [length]. destruct Hx as [Hx|Hx].
  - apply new_bound in Hx; auto. cbn [length] in Hx. lia.
  - inversion Hw; subst. apply IH in Hx; auto. lia.
Qed.

End Calls.

(** * Creating a context *)

(** The instructions of the first state, through FORK and JUMP only. *)
Fixpoint closure (fuel : nat) (P : program) (pc : nat) : option (list nat) :=
  match fuel with
  | O => None
  | S f =>
    match nth_error P.(p_words) pc with
    | None => None
    | Some w =>
      match w_op w with
      | OpFork =>
          match nth_error P.(p_words) (pc + 1) with
          | Some a => match closure f P (pc + 2), closure f P (N.to_nat a) with
                      | Some x, Some y => Some (x ++ y) | _, _ => None end
          | None => None
          end
      | OpJump =>
          match nth_error P.(p_words) (pc + 1) with
          | Some a => closure f P (N.to_nat a)
          | None => None
          end
      | OpJumpTable | OpByte | OpBitVector | OpEither | OpRange | OpAny => Some [pc]
      | OpHalt => Some []
      | _ => None
      end
    end
  end.

Definition opt_list {X} (o : option X) : list X := match o with Some x => [x] | None => [] end.

Lemma closure_loop P off : forall f pc L g st R s e ld, closure f P pc = Some L -> (f <= g)%nat ->
  exists st' o N', ep_loop g P st R (mkT pc s e NOLABEL ld) off = Ok (st', R, o) /\
    s_next st' = s_next st ++ N' /\ N' ++ opt_list o = map (fun p => mkT p s e NOLABEL ld) L.
Proof.
  induction f as [|f IH]; intros pc L g st R s e ld H Hg; [discriminate|].
  destruct g as [|g]; [lia|]. simpl in H. simpl ep_loop. unfold fetch, get.
  destruct (nth_error (p_words P) pc) as [w|]; [|discriminate]. cbn [bind].
  destruct (w_op w); try discriminate;
    try (injection H as <-; eexists st, _, []; split; [reflexivity|]; simpl; rewrite ?app_nil_r; auto; fail).
  - (* FORK *)
    destruct (nth_error (p_words P) (pc + 1)) as [a|]; [|discriminate].
    destruct (closure f P (pc + 2)) as [x|] eqn:E1; [|discriminate].
    destruct (closure f P (N.to_nat a)) as [y|] eqn:E2; [|discriminate]. injection H as <-.
    
    unfold set_pc. simpl t_pc. simpl t_start. simpl t_end. simpl t_label. simpl t_lead.
    destruct (IH (pc + 2)%nat x g st R s e ld E1 ltac:(lia)) as (st1 & o1 & N1 & L1 & M1 & M2). rewrite L1. cbn [bind].
    assert (HP: exists st2, match o1 with Some c' => push_next P st1 c' | None => Ok st1 end = Ok st2 /\
              s_next st2 = s_next st1 ++ opt_list o1).
    { destruct o1 as [c'|]; [|exists st1; simpl; rewrite app_nil_r; auto].
      assert (Hc: t_label c' = NOLABEL).
      { assert (Hin: In c' (map (fun p => mkT p s e NOLABEL ld) x)) by (rewrite <- M2; apply in_app_iff; right; left; auto).
        apply in_map_iff in Hin. destruct Hin as (p & <- & _). auto. }
      unfold push_next, markLive. rewrite Hc, N.eqb_refl. cbn [bind]. eexists. split; [reflexivity|]. reflexivity. }
    destruct HP as (st2 & -> & N2). cbn [bind].
    destruct (IH (N.to_nat a) y g st2 R s e ld E2 ltac:(lia)) as (st3 & o3 & N3 & L3 & M3 & M4). rewrite L3.
    exists st3, o3, ((N1 ++ opt_list o1) ++ N3). split; auto.
    rewrite M3, N2, M1, map_app, <- M4, <- M2, !app_assoc. auto.
  - destruct (nth_error (p_words P) (pc + 1)) as [a|]; [|discriminate]. cbn [bind].
    unfold set_pc. simpl t_start. simpl t_end. simpl t_label. simpl t_lead.
    destruct (IH (N.to_nat a) L g st R s e ld H ltac:(lia)) as (st3 & o3 & N3 & L3 & M3 & M4). rewrite L3.
    exists st3, o3, N3. auto.
Qed.

(** Creating a context succeeds and starts it in the instructions of the first state. *)
Lemma init_closure P f g L : closure f P 0 = Some L -> (f <= g)%nat -> (2 <= length (p_words P))%nat ->
  vm_init g P = Ok (L, mkSt [] [] [] false [] (repeat 0 (N.to_nat ((p_maxLabel P + 1) mod two32))) 0 false []).
Proof.
  intros HC Hg HS.
  assert (E: exists st, vm_init g P = Ok (L, st)).
  { unfold vm_init, get.
    destruct (nth_error (p_words P) (length (p_words P) - 2)) eqn:EN; [|apply nth_error_None in EN; lia].
    cbn [bind]. unfold ep_seq, overlapped. simpl t_label. rewrite N.eqb_refl. cbn [bind].
    match goal with |- context [ep_loop g P ?s ?r ?t ?o] =>
      destruct (closure_loop P 0 f 0%nat L g s [] 0 NONE false HC Hg) as (st3 & o3 & N3 & L3 & M3 & M4) end.
    rewrite L3. cbn [bind]. eexists. f_equal. f_equal. simpl in M3.
    assert (EQ: map t_pc (N3 ++ opt_list o3) = L).
    { rewrite M4, map_map. simpl. apply map_id. }
    rewrite <- EQ. destruct o3; rewrite M3; simpl; rewrite ?app_nil_r; auto. }
  destruct E as (st & E). rewrite E. rewrite (init_state _ _ _ _ E). auto.
Qed.

(** Only threads not yet committed come to the instructions of the first state. *)
Lemma closure_arrive P A F : wf P A F -> forall f pc L, closure f P pc = Some L ->
  arrive P A NOLABEL false pc -> init_ok P A L.
Proof.
  intros W. induction f as [|f IH]; intros pc L H Ha; [discriminate|].
  simpl in H. destruct (arrive_inv P A F W _ _ _ Ha) as (a & w & HA & Hw & Hi & _ & _ & Hm & Hl).
  rewrite Hw in H. unfold instr_ok in Hi.
  assert (Hnofin: w_op w <> OpFinish -> is_fin P pc = false).
  { intros Hne. unfold is_fin. rewrite Hw. destruct (w_op w); congruence. }
  assert (Hnohalt: w_op w <> OpHalt -> is_halt P pc = false).
  { intros Hne. unfold is_halt. rewrite Hw. destruct (w_op w); congruence. }
  destruct (w_op w) eqn:Hop; try discriminate; try (injection H as <-; constructor; auto; constructor; fail).
  - destruct Hi as (Ha1 & (Ha2 & _) & x & Hx & (Ha3 & _)).
    rewrite Hx in H. destruct (closure f P (pc + 2)) as [L1|] eqn:E1; [|discriminate].
    destruct (closure f P (N.to_nat x)) as [L2|] eqn:E2; [|discriminate]. injection H as <-.
    rewrite Hnofin in Hl by discriminate. rewrite Hnohalt in Hl by discriminate.
    destruct Hl as [?|Hl]; [discriminate|]. apply (lab_arr_strict _ _ Ha1) in Hl. rewrite Hl in *.
    apply Forall_app. split; [eapply IH; eauto|eapply IH; eauto]; eapply arrive_weaken; eauto.
  - destruct Hi as (Ha1 & x & Hx & (Ha3 & _)). rewrite Hx in H.
    rewrite Hnofin in Hl by discriminate. rewrite Hnohalt in Hl by discriminate.
    destruct Hl as [?|Hl]; [discriminate|]. apply (lab_arr_strict _ _ Ha1) in Hl. rewrite Hl in *.
    eapply IH; eauto. eapply arrive_weaken; eauto.
Qed.
