(** The engine simulates the idealised one: what it has reported for a keyword, followed by
    leftmost selection among the matches of its remaining threads, never changes. *)
From Verif Require Import Base VmModel VmSpec VmIdeal.
Open Scope N_scope.

Definition me (st : vmst) (l : N) : N := nth (N.to_nat l) (s_mends st) 0.

Definition hits_of (l : N) (hs : list hit) : list (N * N) :=
  map (fun h => (h_start h, h_end h)) (filter (fun h => h_label h =? l) hs).

Lemma hits_of_app l a b : hits_of l (a ++ b) = hits_of l a ++ hits_of l b.
Proof. unfold hits_of. rewrite filter_app, map_app. auto. Qed.

Definition pushed (P : program) (r : res (vmst * list thread * option thread))
  : res (vmst * list thread) :=
  '(st1, R1, ot) <- r ;;
  match ot with
  | None => Ok (st1, R1)
  | Some p => st2 <- push_next P st1 p ;; Ok (st2, R1)
  end.

Definition sim_t (p q : thread) : Prop :=
  t_pc p = t_pc q /\ t_start p = t_start q /\ t_end p = t_end q /\ t_label p = t_label q.

Lemma sim_refl p : sim_t p p.
Proof. repeat split. Qed.

Lemma il_sim P off : forall f t1 t2, sim_t t1 t2 ->
  Forall2 sim_t (ileaves f P t1 off) (ileaves f P t2 off).
Proof.
  induction f as [|f IH]; intros t1 t2 (Hp & Hs & He & Hl); simpl; auto.
  rewrite Hp. destruct (nth_error _ (t_pc t2)) as [w|] eqn:Hw; auto.
  destruct (w_op w); auto; try (constructor; [repeat split; auto|auto]);
    try (apply IH; repeat split; simpl; auto; congruence).
  - apply Forall2_app. apply IH; repeat split; simpl; auto.
    destruct (nth_error _ (t_pc t2 + 1)); auto. apply IH; repeat split; simpl; auto.
  - destruct (nth_error _ (t_pc t2 + 1)); auto. apply IH; repeat split; simpl; auto.
Qed.

Lemma exec_sim P t1 t2 b : sim_t t1 t2 ->
  match exec_byte P t1 b, exec_byte P t2 b with
  | Ok (Some u1), Ok (Some u2) => sim_t u1 u2
  | Ok None, Ok None => True
  | UB, UB => True | Fuel, Fuel => True | Throw, Throw => True
  | _, _ => False
  end.
Proof.
  intros (Hp & Hs & He & Hl). unfold exec_byte. rewrite Hp. unfold fetch, get.
  destruct (nth_error _ (t_pc t2)) as [w|]; simpl; auto.
  destruct (w_op w); simpl; auto.
  - destruct (_ && _); auto. destruct (nth_error _ _); simpl; auto.
    destruct (_ =? _); auto. repeat split; auto.
  - destruct (xorb _ _); auto; repeat split; auto.
  - destruct (nth_error _ _); simpl; auto. destruct (N.testbit _ _); auto; repeat split; auto.
  - destruct (xorb _ _); auto; repeat split; auto.
  - destruct (xorb _ _); auto; repeat split; auto.
  - repeat split; auto.
  - repeat split; auto.
Qed.

Lemma flat_map_sim {X Y} (R : X -> X -> Prop) (f : X -> list Y) l1 l2 :
  (forall x y, R x y -> f x = f y) -> Forall2 R l1 l2 -> flat_map f l1 = flat_map f l2.
Proof. intros H HF. induction HF; simpl; auto. rewrite (H x y), IHHF; auto. Qed.

Lemma fut_sim F P l : forall w off t1 t2, sim_t t1 t2 -> fut F P l w off t1 = fut F P l w off t2.
Proof.
  induction w as [|b w IH]; intros off t1 t2 S; pose proof S as (Hp & Hs & He & Hl); simpl;
    rewrite Hp, Hs, He, Hl; auto.
  destruct (is_fin P (t_pc t2)); auto. unfold istep.
  pose proof (exec_sim P t1 t2 b S) as H.
  destruct (exec_byte P t1 b) as [[u1|]| | |], (exec_byte P t2 b) as [[u2|]| | |]; auto; try easy.
  eapply flat_map_sim; [|apply il_sim; eauto]. auto.
Qed.

Lemma Forall2_impl {X Y} (R1 R2 : X -> Y -> Prop) l1 l2 :
  (forall x y, R1 x y -> R2 x y) -> Forall2 R1 l1 l2 -> Forall2 R2 l1 l2.
Proof. induction 2; constructor; auto. Qed.

Section Sim.
Variables (P : program) (A : nat -> option ann) (F : nat).
Hypothesis (W : wf P A F).
Variables (off b : N) (w : list N).
Hypothesis (Hoff : off + 1 < two64) (Hb : b < 256) (Hw : bytes w).

Definition Fn (l : N) := flat_map (fut F P l w (off + 1)).
Definition Fr (l : N) := flat_map (fut F P l (b :: w) off).

Arguments Fn : simpl never.
Arguments Fr : simpl never.

Lemma bytes_bw : bytes (b :: w).
Proof. constructor; auto. Qed.

Lemma Fn_app l X Y : Fn l (X ++ Y) = Fn l X ++ Fn l Y.
Proof. apply flat_map_app. Qed.
Lemma Fr_app l X Y : Fr l (X ++ Y) = Fr l X ++ Fr l Y.
Proof. apply flat_map_app. Qed.

Lemma Fr_cons l i R : Fr l (i :: R) = fut F P l (b :: w) off i ++ Fr l R.
Proof. reflexivity. Qed.
Lemma Fn_cons l i R : Fn l (i :: R) = fut F P l w (off + 1) i ++ Fn l R.
Proof. reflexivity. Qed.

Definition tokn (p : thread) : Prop :=
  arrive P A (t_label p) true (t_pc p) /\ is_halt P (t_pc p) = false /\ t_start p <= off /\
  (is_fin P (t_pc p) = true -> t_start p <= t_end p /\ t_end p <= off).

Definition tokr (i : thread) : Prop :=
  t_start i <= off /\
  (is_halt P (t_pc i) = true \/
   (arrive P A (t_label i) true (t_pc i) /\
    (is_fin P (t_pc i) = true -> t_start i <= t_end i /\ t_end i < off))).

Record Inv (st : vmst) : Prop := {
  i_cb : s_cb st = true;
  i_len : length (s_mends st) = N.to_nat (p_maxLabel P + 1);
  i_liveno : s_liveno st = existsb (fun p => t_label p =? NOLABEL) (s_next st);
  i_live : forall l, l <= p_maxLabel P ->
     mem l (s_live st) = existsb (fun p => t_label p =? l) (s_next st);
  i_next : Forall tokn (s_next st);
  i_mmax : forall l, me st l <= s_mmax st;
  i_mele : forall l, me st l <= off + 1
}.

Definition covered (st : vmst) (l : N) : Prop :=
  off < me st l \/
  exists x, In x (greedy (me st l) (Fn l (s_next st))) /\ off < snd x.

Definition Cov (st : vmst) (c : N) : Prop :=
  forall pc a wd l, A pc = Some a -> nth_error (p_words P) pc = Some wd ->
    w_op wd = OpCheckHalt -> w_off wd = c ->
    Fn l (ileaves F P (mkT pc 0 0 (a_lab a) false) off) <> [] -> covered st l.

Definition killed (i i' : thread) : Prop := i' = i \/ i' = set_pc i (progEnd P).

Record post (L : list thread) (st : vmst) (R : list thread) (st' : vmst) (R' : list thread) : Prop := {
  po_inv : Inv st';
  po_active : s_active st' = s_active st;
  po_next : exists D, s_next st' = s_next st ++ D /\
     Forall (fun p => exists q, In q L /\ sim_t p q) D;
  po_me : forall l, me st l <= me st' l;
  po_me2 : forall l, Fn l (s_next st) <> [] -> me st' l = me st l;
  po_me3 : forall l, me st' l = me st l \/
     exists q, In q L /\ is_fin P (t_pc q) = true /\ me st' l = t_end q + 1;
  po_R : Forall2 killed R R';
  po_checks : forall c, In c (s_checks st') -> In c (s_checks st) \/ Cov st' c;
  po_hits : exists hs, s_hits st' = s_hits st ++ hs /\
    Forall (fun h => h_end h <= me st' (h_label h)) hs /\
    forall l (k : bool) Y X, lists_ok Y -> lists_ok X ->
      greedy (me st l) (Fn l (s_next st) ++ Fn l L ++ Y ++ (if k then Fr l R else []) ++ X) =
      hits_of l hs ++
      greedy (me st' l) (Fn l (s_next st') ++ Y ++ (if k then Fr l R' else []) ++ X)
}.

(** * Basic facts *)

Lemma tokn_lists l p : tokn p -> lists_ok (fut F P l w (off + 1) p).
Proof.
  intros (Ha & Hh & Hs & He). apply Forall_forall. intros x Hx.
  destruct (fut_in P A F W l w (off + 1) p true x Hw Ha Hx) as (E1 & E2 & _).
  rewrite E1. destruct (is_fin P (t_pc p)) eqn:Hf; [destruct (He eq_refl); lia|lia].
Qed.

Lemma Fn_lists l L : Forall tokn L -> lists_ok (Fn l L).
Proof.
  intros H. apply Forall_flat_map. eapply Forall_impl; [|exact H]. intros; apply tokn_lists; auto.
Qed.

Lemma tokr_lists l p : tokr p -> lists_ok (fut F P l (b :: w) off p).
Proof.
  intros (Hs & [Hh|(Ha & He)]).
  - rewrite fut_halt; auto. constructor.
  - apply Forall_forall. intros x Hx.
    destruct (fut_in P A F W l (b :: w) off p true x bytes_bw Ha Hx) as (E1 & E2 & _).
    rewrite E1. destruct (is_fin P (t_pc p)) eqn:Hf; [destruct (He eq_refl); lia|lia].
Qed.

Lemma Fr_lists l R : Forall tokr R -> lists_ok (Fr l R).
Proof.
  intros H. apply Forall_flat_map. eapply Forall_impl; [|exact H]. intros; apply tokr_lists; auto.
Qed.

Lemma tokr_fut_start l p x : tokr p -> In x (fut F P l (b :: w) off p) -> fst x = t_start p.
Proof.
  intros (Hs & [Hh|(Ha & He)]) Hx.
  - rewrite fut_halt in Hx; auto. easy.
  - apply (fut_in P A F W l (b :: w) off p true x bytes_bw Ha Hx).
Qed.

Lemma killed_tokr i i' : killed i i' -> tokr i -> tokr i'.
Proof.
  intros [->| ->] H; auto. destruct H as (H & _). split; auto. left. simpl. apply (wf_halt _ _ _ W).
Qed.

Lemma killed_all R R' : Forall2 killed R R' -> Forall tokr R -> Forall tokr R'.
Proof. induction 1; intros HF; auto. inversion HF; subst. constructor; eauto using killed_tokr. Qed.

Lemma killed_refl R : Forall2 killed R R.
Proof. induction R; constructor; auto. left; auto. Qed.

Lemma killed_trans : forall R1 R2 R3, Forall2 killed R1 R2 -> Forall2 killed R2 R3 -> Forall2 killed R1 R3.
Proof.
  intros R1 R2 R3 H. revert R3. induction H; intros R3 H3; inversion H3; subst; constructor; auto.
  destruct H as [->| ->], H4 as [->| ->]; unfold killed; auto.
Qed.

Lemma get_mend_ok st l : Inv st -> l <= p_maxLabel P -> get_mend st l = Ok (me st l).
Proof.
  intros I Hl. unfold get_mend, me.
  destruct (get_lt (s_mends st) (N.to_nat l)) as (v & Hv). { rewrite (i_len _ I). lia. }
  rewrite Hv. f_equal. rewrite get_ok in Hv. symmetry. apply nth_error_nth; auto.
Qed.

Lemma find_live_ok st l : Inv st -> l <= p_maxLabel P ->
  find_live P st l = Ok (existsb (fun p => t_label p =? l) (s_next st)).
Proof.
  intros I Hl. unfold find_live. pose proof (wf_maxLabel _ _ _ W).
  rewrite N.mod_small by auto. destruct (N.ltb_spec l (p_maxLabel P + 1)); [|lia].
  rewrite (i_live _ I); auto.
Qed.

Lemma unblocked st l : Inv st -> l <= p_maxLabel P ->
  existsb (fun p => t_label p =? NOLABEL) (s_next st) = false ->
  existsb (fun p => t_label p =? l) (s_next st) = false -> Fn l (s_next st) = [].
Proof.
  intros I Hl H1 H2. pose proof (i_next _ I) as HN. unfold Fn.
  induction (s_next st) as [|p N IH]; auto. simpl in *.
  apply orb_false_iff in H1, H2. destruct H1 as (H1a & H1b), H2 as (H2a & H2b).
  pose proof (Forall_inv HN) as (Ha & _). rewrite IH; eauto using Forall_inv_tail.
  rewrite (fut_other P A F W l w (off + 1) p true); auto.
  - apply N.eqb_neq in H1a; auto.
  - apply N.eqb_neq in H2a; auto.
Qed.

Lemma tokn_lab p : tokn p -> lab_ok P (t_label p).
Proof. intros (Ha & Hh & _). eapply arrive_lab_ok; eauto. Qed.

Lemma existsb_snoc {X} f (l : list X) x : existsb f (l ++ [x]) = existsb f l || f x.
Proof. rewrite existsb_app. simpl. rewrite orb_false_r. auto. Qed.

(** Pushing a thread. *)
Lemma push_ok st p : Inv st -> tokn p -> exists st', push_next P st p = Ok st' /\ Inv st' /\
  s_next st' = s_next st ++ [p] /\ s_active st' = s_active st /\ s_mends st' = s_mends st /\
  s_checks st' = s_checks st /\ s_hits st' = s_hits st.
Proof.
  intros I Hp. unfold push_next, markLive.
  pose proof (max_lt_nolabel P A F W) as Hmx.
  destruct (N.eqb_spec (t_label p) NOLABEL) as [E|E].
  - simpl. eexists. split; [reflexivity|]. simpl. split; [|repeat split; auto].
    destruct I. constructor; simpl; auto.
    + rewrite existsb_snoc, E, N.eqb_refl, orb_true_r. auto.
    + intros l Hl. rewrite existsb_snoc, i_live0 by auto.
      rewrite E. destruct (N.eqb_spec NOLABEL l); [lia|]. rewrite orb_false_r; auto.
    + apply Forall_app; auto.
  - destruct (tokn_lab p Hp) as [?|Hl]; [contradiction|].
    rewrite (find_live_ok st _ I Hl). simpl.
    destruct (existsb (fun p0 => t_label p0 =? t_label p) (s_next st)) eqn:Hex.
    + eexists. split; [reflexivity|]. simpl. split; [|repeat split; auto].
      destruct I. constructor; simpl; auto.
      * rewrite existsb_snoc, i_liveno0. apply N.eqb_neq in E. rewrite E, orb_false_r; auto.
      * intros l Hl'. rewrite existsb_snoc, i_live0 by auto.
        destruct (N.eqb_spec (t_label p) l); [subst; rewrite Hex; auto|rewrite orb_false_r; auto].
      * apply Forall_app; auto.
    + eexists. split; [reflexivity|]. simpl. split; [|repeat split; auto].
      destruct I. constructor; simpl; auto.
      * rewrite existsb_snoc, i_liveno0. apply N.eqb_neq in E. rewrite E, orb_false_r; auto.
      * intros l Hl'. rewrite existsb_snoc. rewrite <- i_live0 by auto.
        rewrite N.eqb_sym. destruct (N.eqb_spec (t_label p) l); [rewrite orb_true_r|rewrite orb_false_r]; auto.
      * apply Forall_app; auto.
Qed.

(** * Properties of [post] *)

Lemma covered_mono st st' l :
  me st l <= me st' l -> (Fn l (s_next st) <> [] -> me st' l = me st l) ->
  (exists D, s_next st' = s_next st ++ D) -> covered st l -> covered st' l.
Proof.
  intros H1 H2 (D & HD) [H|(x & Hx & Hx2)]; [left; lia|].
  right. exists x. split; auto. rewrite HD, H2, Fn_app, greedy_app, in_app_iff; auto.
  intros E. rewrite E in Hx. easy.
Qed.

Lemma post_cov L st R st' R' c : post L st R st' R' -> Cov st c -> Cov st' c.
Proof.
  intros [I1 A1 (D & HD & _) M1 N1 O1 K1 C1 Q1] HC pc a wd l H1 H2 H3 H4 H5.
  eapply covered_mono; [apply M1|apply N1|eauto|]. eapply HC; eauto.
Qed.

Lemma post_refl st R : Inv st -> post [] st R st R.
Proof.
  intros I. constructor; auto using killed_refl.
  - exists []. rewrite app_nil_r. auto.
  - intros; lia.
  - exists []. rewrite app_nil_r. split; auto.
Qed.

Lemma post_trans L1 L2 st0 R0 st1 R1 st2 R2 :
  Forall tokn L1 -> Forall tokn L2 ->
  post L1 st0 R0 st1 R1 -> post L2 st1 R1 st2 R2 -> post (L1 ++ L2) st0 R0 st2 R2.
Proof.
  intros T1 T2 H1 H2.
  destruct H1 as [I1 A1 (D1 & E1 & F1) M1 N1 O1 K1 C1 (h1 & J1 & G1 & Q1)].
  pose proof H2 as [I2 A2 (D2 & E2 & F2) M2 N2 O2 K2 C2 (h2 & J2 & G2 & Q2)].
  constructor; auto.
  - congruence.
  - exists (D1 ++ D2). split. { rewrite E2, E1, app_assoc; auto. }
    apply Forall_app. split.
    + eapply Forall_impl; [|exact F1]. simpl. intros p (q & Hq & S). exists q. rewrite in_app_iff; auto.
    + eapply Forall_impl; [|exact F2]. simpl. intros p (q & Hq & S). exists q. rewrite in_app_iff; auto.
  - intros l. specialize (M1 l). specialize (M2 l). lia.
  - intros l Hn. rewrite N2, N1; auto.
    rewrite E1, Fn_app. intros E. apply app_eq_nil in E. tauto.
  - intros l. destruct (O2 l) as [->|(q & Hq & X)].
    + destruct (O1 l) as [E|(q & Hq & X)]; [auto|].
      right. exists q. rewrite in_app_iff; tauto.
    + right. exists q. rewrite in_app_iff; tauto.
  - eapply killed_trans; eauto.
  - intros c Hc. destruct (C2 c Hc) as [Hc1|]; auto.
    destruct (C1 c Hc1) as [|Hc2]; auto. right. eapply post_cov; eauto.
  - exists (h1 ++ h2). split. { rewrite J2, J1, app_assoc; auto. }
    split. { apply Forall_app; split; auto. eapply Forall_impl; [|exact G1]. simpl.
             intros h Hh. specialize (M2 (h_label h)). lia. }
    intros l k Y X HY HX. rewrite hits_of_app, <- app_assoc, <- Q2 by auto.
    assert (HLY: lists_ok (Fn l L2 ++ Y)) by (apply lists_ok_app; split; auto; apply Fn_lists; auto).
    pose proof (Q1 l k (Fn l L2 ++ Y) X HLY HX) as E. rewrite <- !app_assoc in E.
    rewrite Fn_app, <- !app_assoc. exact E.
Qed.

Lemma Forall2_in {X Y} (R : X -> Y -> Prop) l1 l2 x : Forall2 R l1 l2 -> In x l1 -> exists y, In y l2 /\ R x y.
Proof. induction 1; intros []; subst; [eexists; split; [left|]; eauto|]. destruct IHForall2 as (y' & ? & ?); auto. exists y'; split; auto. right; auto. Qed.

Lemma post_sim L L' st R st' R' : Forall2 sim_t L L' -> post L st R st' R' -> post L' st R st' R'.
Proof.
  intros HS [I1 A1 (D & E & FD) M1 N1 O1 K1 C1 (hs & J & G & Q)]. constructor; auto.
  - exists D. split; auto.
    eapply Forall_impl; [|exact FD]. simpl. intros p (q & Hq & S).
    destruct (Forall2_in _ _ _ _ HS Hq) as (q' & Hq' & S'). exists q'. split; auto.
    destruct S as (?&?&?&?), S' as (?&?&?&?). repeat split; congruence.
  - intros l. destruct (O1 l) as [|(q & Hq & X1 & X2)]; auto. right.
    destruct (Forall2_in _ _ _ _ HS Hq) as (q' & Hq' & S'). exists q'. split; auto.
    destruct S' as (S1&?&S3&?). rewrite <- S1, <- S3; auto.
  - exists hs. split; auto. split; auto.
    intros l k Y X HY HX. rewrite <- Q; auto. f_equal. f_equal. f_equal.
    symmetry. apply (flat_map_sim sim_t); auto. intros; apply fut_sim; auto.
Qed.

(** A thread whose keyword already has a later match can be dropped. *)
Lemma post_skip t st R m : Inv st -> arrive P A (t_label t) m (t_pc t) -> (m = true -> t_end t = off) ->
  t_label t <> NOLABEL -> t_start t < me st (t_label t) ->
  post (ileaves F P t off) st R st R.
Proof.
  intros I Ha He Hn Hs. constructor; auto using killed_refl.
  { exists []. rewrite app_nil_r; auto. }
  { intros; lia. }
  exists []. rewrite app_nil_r. split; auto. split; auto. intros l k Y X HY HX. simpl.
  apply greedy_drop. intros x Hx. unfold Fn in Hx. apply in_flat_map in Hx.
  destruct Hx as (p & Hp & Hx).
  destruct (il_arrive P A F W t m off p Ha He Hp) as (A1 & A2 & A3 & A4 & A5).
  destruct (fut_in P A F W l w (off + 1) p true x Hw A1 Hx) as (B1 & B2 & B3).
  rewrite A4 in B3 by auto. rewrite B1, A3. rewrite <- B3 by auto.
  pose proof (gme_mono (Fn (t_label t) (s_next st)) (me st (t_label t)) (Fn_lists _ _ (i_next _ I))). lia.
Qed.

(** * FINISH *)

Definition lead_ok (st : vmst) (t : thread) : Prop :=
  off < me st (t_label t) \/
  (me st (t_label t) <= t_start t /\ forall x, In x (Fn (t_label t) (s_next st)) -> off < snd x).

Lemma kill_potential l : forall R R' X0 X m, lists_ok X0 -> Forall tokr R ->
  Forall2 (fun i i' => i' = i \/ (i' = set_pc i (progEnd P) /\ t_start i < gme m X0)) R R' ->
  greedy m (X0 ++ Fr l R ++ X) = greedy m (X0 ++ Fr l R' ++ X).
Proof.
  induction R as [|i R IH]; intros R' X0 X m HX HR HF; inversion HF; subst; auto.
  inversion HR; subst. rewrite !Fr_cons, <- !app_assoc.
  destruct H1 as [->|(-> & Hs)].
  - rewrite !app_assoc. rewrite <- (app_assoc _ (Fr l R)), <- (app_assoc _ (Fr l l')).
    apply IH; auto.
    + apply lists_ok_app. split; auto. apply tokr_lists; auto.
    + eapply Forall2_impl; [|exact H3]. cbv beta. intros a c [->|(-> & H)]; auto. right. split; auto.
      rewrite gme_app. pose proof (gme_mono (fut F P l (b :: w) off i) (gme m X0) (tokr_lists l i H2)). lia.
  - rewrite (fut_halt P F l (b :: w) off (set_pc i (progEnd P))) by (apply (wf_halt _ _ _ W)).
    rewrite greedy_drop. { apply IH; auto. }
    intros x Hx. rewrite (tokr_fut_start l i x); auto.
Qed.

Lemma kill_other l l0 : l <> l0 -> l0 <> NOLABEL -> forall R R', Forall tokr R ->
  Forall2 (fun i i' => i' = i \/ (i' = set_pc i (progEnd P) /\ t_label i = l0)) R R' ->
  Fr l R' = Fr l R.
Proof.
  intros Hl Hn. induction R as [|i R IH]; intros R' HR HF; inversion HF; subst; auto.
  inversion HR; subst. rewrite !Fr_cons, IH; auto. f_equal.
  destruct H1 as [->|(-> & E)]; auto.
  rewrite (fut_halt P F l (b :: w) off (set_pc i (progEnd P))) by (apply (wf_halt _ _ _ W)).
  destruct H2 as (_ & [Hh|(Ha & _)]). { rewrite fut_halt; auto. }
  rewrite (fut_other P A F W l (b :: w) off i true); auto using bytes_bw; congruence.
Qed.

Lemma kill_label_rel l R : Forall2 (fun i i' => i' = i \/ (i' = set_pc i (progEnd P) /\ t_label i = l)) R
  (kill_label P l R).
Proof.
  induction R as [|i R IH]; simpl; constructor; auto.
  destruct (N.eqb_spec (t_label i) l); auto.
Qed.

Lemma kill_same_rel l s R : Forall2 (fun i i' => i' = i \/ (i' = set_pc i (progEnd P) /\ t_label i = l /\ t_start i = s)) R
  (kill_same_start P l s R).
Proof.
  induction R as [|i R IH]; simpl; [constructor|].
  destruct (N.eqb_spec (t_start i) s).
  - constructor; auto. destruct (N.eqb_spec (t_label i) l); auto.
  - constructor; auto. clear. induction R; constructor; auto.
Qed.

(** The kills of FINISH, as a potential statement. *)
Definition finish_kill (t : thread) (R : list thread) : list thread :=
  if t.(t_end) =? off then
    if t.(t_lead) then kill_label P t.(t_label) R
    else kill_same_start P t.(t_label) t.(t_start) R
  else R.

Lemma finish_kill_killed t R : Forall2 killed R (finish_kill t R).
Proof.
  unfold finish_kill. destruct (_ =? _); [|apply killed_refl]. destruct (t_lead t).
  - eapply Forall2_impl; [|apply kill_label_rel]. simpl. unfold killed. tauto.
  - eapply Forall2_impl; [|apply kill_same_rel]. simpl. unfold killed. tauto.
Qed.

Lemma finish_kill_potential t R st l (k : bool) Y X :
  Inv st -> Forall tokr R -> t_label t <= p_maxLabel P -> t_start t <= t_end t ->
  (t_end t = off -> t_lead t = true -> lead_ok st t) ->
  lists_ok Y ->
  let q := if t_label t =? l then [(t_start t, t_end t + 1)] else [] in
  greedy (me st l) (Fn l (s_next st) ++ q ++ Y ++ (if k then Fr l R else []) ++ X) =
  greedy (me st l) (Fn l (s_next st) ++ q ++ Y ++ (if k then Fr l (finish_kill t R) else []) ++ X).
Proof.
  intros I HR Hl Hse Hlead HY q. destruct k; [|reflexivity].
  unfold finish_kill. destruct (N.eqb_spec (t_end t) off) as [Eo|]; [|reflexivity].
  pose proof (max_lt_nolabel P A F W) as Hmx.
  assert (HN: lists_ok (Fn l (s_next st))) by (apply Fn_lists; apply (i_next _ I)).
  subst q. destruct (N.eqb_spec (t_label t) l) as [El|El].
  - assert (Hq: lists_ok [(t_start t, t_end t + 1)]) by (constructor; simpl; [lia|constructor]).
    set (X0 := Fn l (s_next st) ++ [(t_start t, t_end t + 1)] ++ Y).
    assert (HX0: lists_ok X0). { unfold X0. rewrite !lists_ok_app. auto. }
    replace (Fn l (s_next st) ++ [(t_start t, t_end t + 1)] ++ Y ++ Fr l R ++ X)
      with (X0 ++ Fr l R ++ X) by (unfold X0; rewrite <- !app_assoc; auto).
    assert (G: t_start t < gme (me st l) X0 /\ (t_lead t = true -> off < gme (me st l) X0)).
    { unfold X0. rewrite app_assoc, gme_app.
      pose proof (gme_mono Y (gme (me st l) (Fn l (s_next st) ++ [(t_start t, t_end t + 1)])) HY) as M.
      rewrite gme_app in *. simpl in *.
      pose proof (gme_mono (Fn l (s_next st)) (me st l) HN) as M2.
      destruct (N.leb_spec (gme (me st l) (Fn l (s_next st))) (t_start t)) as [Hle|Hgt].
      - split; [lia|]. intros; lia.
      - split; [lia|]. intros Hld. destruct (Hlead Eo Hld) as [Ho|(Ho1 & Ho2)]; rewrite El in *; [lia|].
        assert (E: off < gme (me st l) (Fn l (s_next st))); [|lia].
        clear - Hgt Ho1 Ho2 HN. revert Hgt Ho1 Ho2. generalize (me st l) as m0.
        induction (Fn l (s_next st)) as [|[s e] X IH]; intros m0 Hgt H1 H2; simpl in *; [lia|].
        inversion HN; subst.
        destruct (m0 <=? s) eqn:Em; [|apply IH; auto; lia].
        pose proof (H2 (s, e) (or_introl eq_refl)) as H5. simpl in H5.
        pose proof (gme_mono X e H4). lia. }
    rewrite (kill_potential l R (if t_lead t then kill_label P (t_label t) R else kill_same_start P (t_label t) (t_start t) R)); auto.
    { unfold X0. rewrite <- !app_assoc. auto. }
    destruct (t_lead t) eqn:Ld.
    + destruct G as (_ & G). specialize (G eq_refl).
      pose proof (kill_label_rel (t_label t) R) as KR. revert HR KR. clear - G.
      generalize (kill_label P (t_label t) R). intros R' HR KR. induction KR; constructor; auto.
      * inversion HR; subst. destruct H as [|(-> & _)]; auto. right. split; auto. destruct H2. lia.
      * inversion HR; auto.
    + destruct G as (G & _).
      eapply Forall2_impl; [|apply kill_same_rel]. simpl. intros a c [|(-> & _ & E)]; auto. right. split; auto. lia.
  - assert (E: Fr l (if t_lead t then kill_label P (t_label t) R else kill_same_start P (t_label t) (t_start t) R) = Fr l R).
    { apply (kill_other l (t_label t)); auto; [lia|]. destruct (t_lead t).
      - apply kill_label_rel.
      - eapply Forall2_impl; [|apply kill_same_rel]. simpl. tauto. }
    rewrite E. reflexivity.
Qed.

Lemma me_upd st l v : Inv st -> l <= p_maxLabel P -> forall m x l',
  m = upd (s_mends st) (N.to_nat l) v ->
  me (with_mends st m x) l' = if l' =? l then v else me st l'.
Proof.
  intros I Hl m x l' ->. unfold me. simpl.
  destruct (N.eqb_spec l' l) as [->|Hne].
  - apply nth_error_nth. apply nth_upd_same. rewrite (i_len _ I). lia.
  - destruct (nth_error (s_mends st) (N.to_nat l')) eqn:E.
    + erewrite nth_error_nth; [symmetry; apply nth_error_nth; eauto|]. rewrite nth_upd_other; auto. lia.
    + apply nth_error_None in E. rewrite !nth_overflow; auto. rewrite upd_length; auto.
Qed.

Lemma finish_ok st R t : Inv st -> Forall tokr R -> is_fin P (t_pc t) = true ->
  arrive P A (t_label t) true (t_pc t) -> t_start t <= t_end t -> t_end t <= off ->
  (t_end t = off -> t_lead t = true -> lead_ok st t) ->
  exists st' R', pushed P (exec_finish P st R t off) = Ok (st', R') /\ post [t] st R st' R'.
Proof.
  intros I HR Hfin Harr Hse Heo Hlead.
  pose proof Harr as (a & Ha & _ & Hlab). rewrite Hfin in Hlab.
  pose proof (max_lt_nolabel P A F W) as Hmx.
  assert (HF: forall l, Fn l [t] = if t_label t =? l then [(t_start t, t_end t + 1)] else []).
  { intros l. unfold Fn. simpl. rewrite fut_fin, app_nil_r; auto. }
  assert (Htok: tokn t).
  { split; [auto|]. split.
    - unfold is_fin, is_halt in *. destruct (nth_error _ _) as [x|]; auto. destruct (w_op x); auto.
    - split; [lia|]. intros _; split; auto. }
  unfold exec_finish. fold (finish_kill t R).
  assert (Hblk: (if s_liveno st then Ok true else find_live P st (t_label t)) =
     Ok (s_liveno st || existsb (fun p => t_label p =? t_label t) (s_next st))).
  { destruct (s_liveno st); auto. rewrite find_live_ok; auto. }
  rewrite Hblk. simpl.
  destruct (s_liveno st || existsb _ (s_next st)) eqn:Eb.
  - (* stays pending *)
    unfold pushed; simpl.
    destruct (push_ok st t I Htok) as (st' & Hp & I' & N' & A' & M' & C' & H').
    rewrite Hp. simpl. exists st', (finish_kill t R). split; auto.
    assert (ME: forall l, me st' l = me st l) by (intros; unfold me; rewrite M'; auto).
    constructor; auto.
    + exists [t]. split; auto. constructor; auto. exists t. split; [left|apply sim_refl]; auto.
    + intros l; rewrite ME; lia.
    + apply finish_kill_killed.
    + rewrite C'; auto.
    + exists []. rewrite app_nil_r. split; auto. split; auto.
      intros l k Y X HY HX. simpl. rewrite N', Fn_app, <- (app_assoc (Fn l (s_next st))), ME, HF.
      apply finish_kill_potential; auto.
  - apply orb_false_iff in Eb. destruct Eb as (Eb1 & Eb2).
    assert (HN: Fn (t_label t) (s_next st) = []).
    { apply unblocked; auto. rewrite <- (i_liveno _ I); auto. }
    rewrite get_mend_ok by auto. simpl.
    destruct (N.leb_spec (me st (t_label t)) (t_start t)) as [Hle|Hgt].
    + (* emitted *)
      unfold set_at. destruct (Nat.ltb_spec (N.to_nat (t_label t)) (length (s_mends st))) as [Hlt|Hge].
      2:{ rewrite (i_len _ I) in Hge. lia. }
      simpl. rewrite (N.mod_small (t_end t + 1)) by (unfold two64 in *; lia).
      set (e1 := t_end t + 1). set (mm := if s_mmax st <? e1 then e1 else s_mmax st).
      set (st1 := with_mends st (upd (s_mends st) (N.to_nat (t_label t)) e1) mm).
      assert (MU: forall l', me st1 l' = if l' =? t_label t then e1 else me st l').
      { intros. apply me_upd; auto. }
      unfold emit. assert (Hcb: s_cb st1 = true) by apply (i_cb _ I). rewrite Hcb. unfold pushed. simpl.
      exists (with_hits st1 (s_hits st1 ++ [mkHit (t_start t) e1 (t_label t)])), (finish_kill t R).
      split; auto.
      assert (ME: forall l, me (with_hits st1 (s_hits st1 ++ [mkHit (t_start t) e1 (t_label t)])) l = if l =? t_label t then e1 else me st l).
      { intros l'. rewrite <- MU. auto. }
      constructor; auto.
      * destruct I. constructor; simpl; auto.
        -- rewrite upd_length; auto.
        -- intros l. rewrite ME. destruct (l =? t_label t).
           ++ unfold mm. destruct (N.ltb_spec (s_mmax st) e1); lia.
           ++ unfold mm. specialize (i_mmax0 l). destruct (N.ltb_spec (s_mmax st) e1); lia.
        -- intros l. rewrite ME. destruct (l =? t_label t); auto. unfold e1; lia.
      * simpl. exists []. rewrite app_nil_r. auto.
      * intros l. rewrite ME. destruct (N.eqb_spec l (t_label t)); subst; unfold e1; lia.
      * intros l Hn. rewrite ME. destruct (N.eqb_spec l (t_label t)); subst; [contradiction|auto].
      * intros l. rewrite ME. destruct (N.eqb_spec l (t_label t)); auto. right. exists t.
        split; [left; auto|]. split; auto.
      * apply finish_kill_killed.
      * exists [mkHit (t_start t) e1 (t_label t)]. split; auto. split.
        { constructor; auto. simpl. rewrite ME, N.eqb_refl. lia. }
        intros l k Y X HY HX. rewrite HF.
        rewrite (finish_kill_potential t R st l k Y X); auto.
        rewrite ME. unfold hits_of. simpl. rewrite (N.eqb_sym l).
        destruct (N.eqb_spec (t_label t) l) as [El|El]; simpl.
        -- rewrite <- El in *. rewrite HN. simpl.
           destruct (N.leb_spec (me st (t_label t)) (t_start t)); [|lia]. reflexivity.
        -- reflexivity.
    + (* overlaps an earlier hit *)
      unfold pushed; simpl. exists st, (finish_kill t R). split; auto.
      constructor; auto.
      * exists []. rewrite app_nil_r; auto.
      * intros; lia.
      * apply finish_kill_killed.
      * exists []. rewrite app_nil_r. split; auto. split; auto.
        intros l k Y X HY HX. rewrite HF.
        rewrite (finish_kill_potential t R st l k Y X); auto. simpl.
        destruct (N.eqb_spec (t_label t) l) as [El|El]; [|reflexivity].
        rewrite <- El in *. rewrite HN. simpl.
        destruct (N.leb_spec (me st (t_label t)) (t_start t)); [lia|]. reflexivity.
Qed.

(** * The epsilon loop *)

Definition fresh (st : vmst) (t : thread) : Prop :=
  t_label t = NOLABEL \/ me st (t_label t) <= t_start t \/ off < me st (t_label t).

Definition locks (st : vmst) (rk : nat) : Prop :=
  forall c, In c (s_checks st) -> Cov st c \/
    exists pc a wd, A pc = Some a /\ nth_error (p_words P) pc = Some wd /\
      w_op wd = OpCheckHalt /\ w_off wd = c /\ (rk < a_rk a)%nat.

Definition mstate (m : bool) (st : vmst) (t : thread) : Prop :=
  m = true -> t_end t = off /\ t_label t <> NOLABEL /\ (t_lead t = true -> lead_ok st t).

Definition leafok (q : thread) : Prop :=
  arrive P A (t_label q) true (t_pc q) /\ (is_fin P (t_pc q) = true -> t_end q = off).

Lemma locks_post L st R st' R' rk rk' : post L st R st' R' -> locks st rk -> (rk' <= rk)%nat -> locks st' rk'.
Proof.
  intros HP HL Hr c Hc. destruct (po_checks _ _ _ _ _ HP c Hc) as [Hc1|]; auto.
  destruct (HL c Hc1) as [HC|(pc & a & wd & H1 & H2 & H3 & H4 & H5)].
  - left. eapply post_cov; eauto.
  - right. exists pc, a, wd. repeat split; auto. lia.
Qed.

Lemma fresh_post L st R st' R' t : post L st R st' R' -> Forall leafok L -> fresh st t -> fresh st' t.
Proof.
  intros HP HL [H|H]; [left; auto|]. right.
  destruct (po_me3 _ _ _ _ _ HP (t_label t)) as [E|(q & Hq & Hf & E)]; [rewrite E; auto|].
  rewrite Forall_forall in HL. destruct (HL q Hq) as (_ & He). rewrite He in E by auto. lia.
Qed.

Lemma lead_post L st R st' R' t t' : post L st R st' R' -> Forall leafok L ->
  t_label t' = t_label t -> t_start t' = t_start t -> lead_ok st t -> lead_ok st' t'.
Proof.
  intros HP HL El Es H. unfold lead_ok in *. rewrite El, Es. rewrite Forall_forall in HL.
  destruct H as [H|(H1 & H2)].
  - left. pose proof (po_me _ _ _ _ _ HP (t_label t)). lia.
  - destruct (po_me3 _ _ _ _ _ HP (t_label t)) as [E|(q & Hq & Hf & E)].
    + right. rewrite E. split; auto. destruct (po_next _ _ _ _ _ HP) as (D & ED & FD).
      rewrite ED, Fn_app. intros x Hx. apply in_app_iff in Hx. destruct Hx as [Hx|Hx]; auto.
      apply in_flat_map in Hx. destruct Hx as (p & Hp & Hx). rewrite Forall_forall in FD.
      destruct (FD p Hp) as (q & Hq & S1 & S2 & S3 & S4). destruct (HL q Hq) as (Ha & He).
      rewrite <- S1, <- S4 in Ha.
      destruct (fut_in P A F W _ _ _ _ _ _ Hw Ha Hx) as (_ & G & _).
      destruct (is_fin P (t_pc p)) eqn:Hf; [|lia]. rewrite S1 in Hf. rewrite S3, He in G by auto. lia.
    + left. destruct (HL q Hq) as (_ & He). rewrite He in E by auto. lia.
Qed.

Lemma mstate_post L st R st' R' m t t' : post L st R st' R' -> Forall leafok L ->
  t_label t' = t_label t -> t_start t' = t_start t -> t_end t' = t_end t -> t_lead t' = t_lead t ->
  mstate m st t -> mstate m st' t'.
Proof.
  intros HP HL E1 E2 E3 E4 H Hm. destruct (H Hm) as (H1 & H2 & H3).
  rewrite E1, E3, E4. repeat split; auto. intros. eapply lead_post; eauto.
Qed.

Lemma il_leafok t m : arrive P A (t_label t) m (t_pc t) -> (m = true -> t_end t = off) ->
  Forall leafok (ileaves F P t off).
Proof.
  intros Ha Hm. apply Forall_forall. intros q Hq.
  destruct (il_arrive P A F W t m off q Ha Hm Hq) as (X1 & X2 & X3 & X4 & X5). split; auto.
Qed.

Lemma il_tokn t m : arrive P A (t_label t) m (t_pc t) -> (m = true -> t_end t = off) ->
  t_start t <= off -> Forall tokn (ileaves F P t off).
Proof.
  intros Ha Hm Hs. apply Forall_forall. intros q Hq.
  destruct (il_arrive P A F W t m off q Ha Hm Hq) as (X1 & X2 & X3 & X4 & X5).
  split; [auto|]. split; [auto|]. split; [lia|]. intros Hf. rewrite X5 by auto. lia.
Qed.

(** Pushing the thread itself. *)
Lemma leaf_ok st R t : Inv st -> tokn t ->
  exists st' R', pushed P (Ok (st, R, Some t)) = Ok (st', R') /\ post [t] st R st' R'.
Proof.
  intros I Ht. unfold pushed. simpl.
  destruct (push_ok st t I Ht) as (st' & Hp & I' & N' & A' & M' & C' & H').
  rewrite Hp. simpl. exists st', R. split; auto.
  assert (ME: forall l, me st' l = me st l) by (intros; unfold me; rewrite M'; auto).
  constructor; auto using killed_refl.
  - exists [t]. split; auto. constructor; auto. exists t. split; [left|apply sim_refl]; auto.
  - intros l; rewrite ME; lia.
  - rewrite C'; auto.
  - exists []. rewrite app_nil_r. split; auto. split; auto.
    intros l k Y X HY HX. simpl. rewrite N', Fn_app, <- (app_assoc (Fn l (s_next st))), ME. auto.
Qed.

Lemma overlapped_ok st t : Inv st -> lab_ok P (t_label t) ->
  overlapped st t = Ok (negb (t_label t =? NOLABEL) && (t_start t <? me st (t_label t))).
Proof.
  intros I Hl. unfold overlapped. destruct (N.eqb_spec (t_label t) NOLABEL); auto.
  destruct Hl as [|Hl]; [contradiction|]. rewrite get_mend_ok; auto.
Qed.

Lemma find_check_ok st c : c <= p_maxCheck P -> find_check P st c = Ok (mem c (s_checks st)).
Proof.
  intros H. unfold find_check. pose proof (wf_maxCheck _ _ _ W). rewrite N.mod_small by auto.
  destruct (N.ltb_spec c (p_maxCheck P + 1)); auto. lia.
Qed.

Lemma mem_in c l : mem c l = true <-> In c l.
Proof.
  unfold mem. rewrite existsb_exists. split.
  - intros (x & Hx & E). apply N.eqb_eq in E. subst; auto.
  - intros H. exists c. split; auto. apply N.eqb_refl.
Qed.

(** Facts about locks. *)
Lemma Fn_il_start l t m x : arrive P A (t_label t) m (t_pc t) -> (m = true -> t_end t = off) ->
  In x (Fn l (ileaves F P t off)) -> fst x = t_start t /\ off < snd x /\
    (t_label t <> NOLABEL -> t_label t = l).
Proof.
  intros Ha Hm Hx. apply in_flat_map in Hx. destruct Hx as (p & Hp & Hx).
  destruct (il_arrive P A F W t m off p Ha Hm Hp) as (X1 & X2 & X3 & X4 & X5).
  destruct (fut_in P A F W l w (off + 1) p true x Hw X1 Hx) as (B1 & B2 & B3).
  split; [congruence|]. split.
  - destruct (is_fin P (t_pc p)); [rewrite X5 in B2 by auto; lia|lia].
  - intros Hn. rewrite X4 in B3 by auto. auto.
Qed.

Lemma covered_drop st l Z V : Inv st -> covered st l -> (forall x, In x Z -> fst x <= off) ->
  greedy (me st l) (Fn l (s_next st) ++ Z ++ V) = greedy (me st l) (Fn l (s_next st) ++ V).
Proof.
  intros I HC HZ. apply greedy_drop. intros x Hx. specialize (HZ x Hx).
  assert (HN: lists_ok (Fn l (s_next st))) by (apply Fn_lists; apply (i_next _ I)).
  destruct HC as [H|(y & Hy & Hy2)].
  - pose proof (gme_mono (Fn l (s_next st)) (me st l) HN). lia.
  - pose proof (greedy_gme _ _ _ HN Hy). lia.
Qed.

(** Being killed at a lock changes nothing. *)
Lemma post_locked t a wd st R m : Inv st -> A (t_pc t) = Some a ->
  nth_error (p_words P) (t_pc t) = Some wd -> w_op wd = OpCheckHalt ->
  a_lab a = t_label t -> t_start t <= off ->
  arrive P A (t_label t) m (t_pc t) -> (m = true -> t_end t = off) ->
  Cov st (w_off wd) -> post (ileaves F P t off) st R st R.
Proof.
  intros I Ha Hwd Hop El Hs Harr Hm HC. constructor; auto using killed_refl.
  { exists []. rewrite app_nil_r; auto. }
  { intros; lia. }
  exists []. rewrite app_nil_r. split; auto. split; auto. intros l k Y X HY HX. simpl.
  destruct (Fn l (ileaves F P t off)) as [|y r] eqn:E; [reflexivity|]. rewrite <- E.
  apply covered_drop; auto.
  - eapply (HC (t_pc t) a wd l); eauto. intros E2.
    assert (Fn l (ileaves F P t off) = []); [|congruence].
    eapply (il_same_empty P F l w off (mkT (t_pc t) 0 0 (a_lab a) false)); [split; auto|exact E2].
  - intros x Hx. destruct (Fn_il_start l t m x Harr Hm Hx) as (X1 & _). lia.
Qed.

Lemma Forall2_sim_refl L : Forall2 sim_t L L.
Proof. induction L; constructor; auto using sim_refl. Qed.

Lemma live_check_ok st t : Inv st -> lab_ok P (t_label t) ->
  exists blk, live_check P st (t_start t) (t_label t) = Ok blk /\
   (blk = false -> fresh st t ->
     (forall l, (t_label t = NOLABEL \/ t_label t = l) -> 
        Fn l (s_next st) = [] /\ (me st l <= t_start t \/ off < me st l))).
Proof.
  intros I Hl. unfold live_check. destruct (N.eqb_spec (t_label t) NOLABEL) as [E|E].
  - eexists. split; [reflexivity|]. intros Hblk _ l _.
    destruct (s_next st) as [|? ?]; [|discriminate]. split; auto. left.
    pose proof (i_mmax _ I l). apply N.ltb_ge in Hblk. lia.
  - destruct Hl as [|Hl]; [contradiction|].
    destruct (s_liveno st) eqn:El.
    + eexists. split; [reflexivity|]. discriminate.
    + rewrite find_live_ok by auto. eexists. split; [reflexivity|].
      intros Hblk Hfr l [?|<-]; [contradiction|]. split.
      * apply unblocked; auto. rewrite <- (i_liveno _ I); auto.
      * destruct Hfr as [?|[?|?]]; [contradiction|left; auto|right; auto].
Qed.

Lemma with_checks_inv st c : Inv st -> Inv (with_checks st c).
Proof. intros []. constructor; auto. Qed.

Lemma ep_fork f st R t :
  match nth_error (p_words P) (t_pc t) with Some wd => w_op wd = OpFork | None => False end ->
  pushed P (ep_loop (S f) P st R t off) =
  (let c := set_pc t (t_pc t + 2) in
   ov <- overlapped st c ;;
   '(st2, R1) <- (if (ov : bool) then Ok (st, R) else pushed P (ep_loop f P st R c off)) ;;
   x <- fetch P (t_pc t + 1) ;;
   pushed P (ep_loop f P st2 R1 (set_pc t (N.to_nat x)) off)).
Proof.
  intros H. simpl. unfold fetch at 1, get at 1.
  destruct (nth_error (p_words P) (t_pc t)) as [wd|]; [|easy]. simpl. rewrite H.
  destruct (overlapped st (set_pc t (t_pc t + 2))) as [[]| | |]; simpl; auto.
  - destruct (fetch P (t_pc t + 1)); simpl; auto.
  - destruct (ep_loop f P st R (set_pc t (t_pc t + 2)) off) as [[[st1 R1] [c'|]]| | |]; simpl; auto.
    + destruct (push_next P st1 c'); simpl; auto. destruct (fetch P (t_pc t + 1)); simpl; auto.
    + destruct (fetch P (t_pc t + 1)); simpl; auto.
Qed.

Lemma ep_ok : forall n t a m fuel st R,
  A (t_pc t) = Some a -> (a_rk a < n)%nat -> (a_rk a < fuel)%nat ->
  arrive P A (t_label t) m (t_pc t) -> t_start t <= off ->
  mstate m st t -> fresh st t -> Inv st -> Forall tokr R -> locks st (a_rk a) ->
  exists st' R', pushed P (ep_loop fuel P st R t off) = Ok (st', R') /\
    post (ileaves F P t off) st R st' R'.
Proof.
  induction n as [|n IH]; intros t a m fuel st R Ha Hn Hfuel Harr Hs Hms Hfr I HR HL; [lia|].
  destruct fuel as [|f]; [lia|].
  destruct (arrive_inv P A F W _ _ _ Harr) as (a' & wd & Ha' & Hwd & Hi & Hrk & Hlok & Hm & Hx).
  rewrite Ha in Ha'; injection Ha' as <-.
  assert (Hend: m = true -> t_end t = off) by (intros E; apply (Hms E)).
  rewrite (il_unfold P A F W _ _ _ _ Ha Hwd).
  assert (Hfetch: fetch P (t_pc t) = Ok wd) by (unfold fetch, get; rewrite Hwd; auto).
  assert (Hleaf: steps_here (w_op wd) = true -> 
    exists st' R', pushed P (Ok (st, R, Some t)) = Ok (st', R') /\ post [t] st R st' R').
  { intros Hst. apply leaf_ok; auto. split; [eapply arrive_weaken; [|exact Harr]; auto|].
    unfold is_halt, is_fin. rewrite Hwd.
    destruct (w_op wd); try discriminate; (split; [auto|split; [auto|intros; discriminate]]). }
  unfold instr_ok in Hi.
  destruct (w_op wd) eqn:Ho;
    try (simpl; rewrite Hfetch; simpl; rewrite Ho; apply Hleaf; reflexivity);
    try (now destruct Hi);
    try (assert (Elab: lab_arr a (t_label t))
       by (revert Hx; unfold is_fin, is_halt; rewrite Hwd, Ho; intros [|]; [discriminate|auto])).
  - (* FINISH *)
    simpl. rewrite Hfetch. simpl. rewrite Ho.
    assert (Hmt: m = true) by (apply Hm; auto).
    destruct (Hms Hmt) as (E1 & E2 & E3).
    apply finish_ok; auto; try lia.
    + unfold is_fin; rewrite Hwd, Ho; auto.
    + eapply arrive_weaken; [|exact Harr]; auto.
  - (* FORK *)
    rewrite ep_fork by (rewrite Hwd; auto). cbv zeta.
    destruct Hi as (Hany & Hx0 & x & Hx1 & Hx2). apply lab_arr_strict in Elab; [|exact Hany].  rewrite Hx1.
    apply arrive_lt_some in Hx0. apply arrive_lt_some in Hx2.
    destruct Hx0 as (Ar1 & a1 & Ha1 & Hr1), Hx2 as (Ar2 & a2 & Ha2 & Hr2).
    rewrite Elab in *.
    assert (Ar1': arrive P A (t_label t) m (t_pc t + 2)) by (eapply arrive_weaken; [|exact Ar1]; auto).
    assert (Ar2': arrive P A (t_label t) m (N.to_nat x)) by (eapply arrive_weaken; [|exact Ar2]; auto).
    rewrite overlapped_ok by (auto; simpl; auto). simpl.
    set (c := set_pc t (t_pc t + 2)).
    assert (C1: exists st2 R1, (if negb (t_label t =? NOLABEL) && (t_start t <? me st (t_label t))
        then Ok (st, R) else pushed P (ep_loop f P st R c off)) = Ok (st2, R1) /\
        post (ileaves F P c off) st R st2 R1).
    { destruct (negb (t_label t =? NOLABEL) && (t_start t <? me st (t_label t))) eqn:Eov.
      - exists st, R. split; auto. apply andb_true_iff in Eov. destruct Eov as (Eo1 & Eo2).
        apply negb_true_iff, N.eqb_neq in Eo1. apply N.ltb_lt in Eo2.
        apply (post_skip c st R m); auto.
      - apply (IH c a1 m); auto; simpl; auto; try lia.
        intros c0 Hc0. destruct (HL c0 Hc0) as [|(pc & aa & ww & X1 & X2 & X3 & X4 & X5)]; auto.
        right. exists pc, aa, ww. repeat split; auto. lia. }
    destruct C1 as (st2 & R1 & EC & PC). rewrite EC. simpl.
    unfold fetch, get. rewrite Hx1. simpl.
    assert (LO: Forall leafok (ileaves F P c off)) by (apply (il_leafok c m); auto).
    destruct (IH (set_pc t (N.to_nat x)) a2 m f st2 R1) as (st3 & R3 & E3 & P3); simpl; auto; try lia.
    + eapply mstate_post; eauto.
    + eapply fresh_post; eauto.
    + eapply po_inv; eauto.
    + eapply killed_all; [eapply po_R; eauto|auto].
    + eapply locks_post; [exact PC|exact HL|lia].
    + exists st3, R3. split; auto. eapply post_trans; [| |exact PC|exact P3].
      * eapply (il_tokn c m); auto.
      * eapply (il_tokn (set_pc t (N.to_nat x)) m); auto.
  - (* JUMP *)
    simpl. rewrite Hfetch. simpl. rewrite Ho.
    destruct Hi as (Hany & x & Hx1 & Hx2). rewrite Hx1. apply lab_arr_strict in Elab; [|exact Hany]. 
    apply arrive_lt_some in Hx2. destruct Hx2 as (Ar2 & a2 & Ha2 & Hr2). rewrite Elab in *.
    unfold fetch, get. rewrite Hx1. simpl.
    apply (IH (set_pc t (N.to_nat x)) a2 m); simpl; auto; try lia.
    + eapply arrive_weaken; [|exact Ar2]; auto.
    + intros c0 Hc0. destruct (HL c0 Hc0) as [|(pc & aa & ww & X1 & X2 & X3 & X4 & X5)]; auto.
      right. exists pc, aa, ww. repeat split; auto. lia.
  - (* CHECK_HALT *)
    simpl. rewrite Hfetch. simpl. rewrite Ho.
    destruct Hi as (Hany & Hck & Hx2). apply lab_arr_strict in Elab; [|exact Hany]. 
    apply arrive_lt_some in Hx2. destruct Hx2 as (Ar2 & a2 & Ha2 & Hr2).
    rewrite find_check_ok by auto. simpl.
    destruct (mem (w_off wd) (s_checks st)) eqn:Em.
    + (* locked *)
      unfold pushed. simpl. exists st, R. split; auto.
      pose proof (post_locked t a wd st R m I Ha Hwd Ho Elab Hs Harr Hend) as HP.
      rewrite (il_unfold P A F W _ _ _ _ Ha Hwd), Ho in HP. apply HP.
      apply mem_in in Em. destruct (HL _ Em) as [|(pc & aa & ww & X1 & X2 & X3 & X4 & X5)]; auto.
      assert (pc = t_pc t) as -> by (eapply (wf_checks _ _ _ W); eauto).
      rewrite Ha in X1. injection X1 as <-. lia.
    + assert (Hlab: lab_ok P (t_label t)) by (rewrite <- Elab; auto).
      destruct (live_check_ok st t I Hlab) as (blk & Eblk & Hblk). rewrite Eblk. simpl.
      set (t' := set_pc t (t_pc t + 1)).
      rewrite Elab in *.
      assert (Ar2': arrive P A (t_label t') m (t_pc t')) by (eapply arrive_weaken; [|exact Ar2]; auto).
      destruct blk.
      * apply (IH t' a2 m); simpl; auto; try lia.
        intros c0 Hc0. destruct (HL c0 Hc0) as [|(pc & aa & ww & X1 & X2 & X3 & X4 & X5)]; auto.
        right. exists pc, aa, ww. repeat split; auto. lia.
      * specialize (Hblk eq_refl Hfr).
        set (st1 := with_checks st (w_off wd :: s_checks st)).
        assert (I1: Inv st1) by (apply with_checks_inv; auto).
        destruct (IH t' a2 m f st1 R) as (st' & R' & E' & P'); auto; simpl; try lia.
        { intros c0 [<-|Hc0].
          - right. exists (t_pc t), a, wd. repeat split; auto.
          - destruct (HL c0 Hc0) as [|(pc & aa & ww & X1 & X2 & X3 & X4 & X5)]; auto.
            right. exists pc, aa, ww. repeat split; auto. lia. }
        exists st', R'. split; auto.
        destruct P' as [Q1 Q2 Q3 Q4 Q5 Q6 Q7 Q8 Q9]. constructor; auto.
        intros c Hc. destruct (Q8 c Hc) as [[<-|Hc1]|]; auto. right.
        (* the new lock is covered by what this thread left behind *)
        intros pc aa ww l X1 X2 X3 X4 X5.
        assert (pc = t_pc t) as -> by (eapply (wf_checks _ _ _ W); eauto).
        rewrite Ha in X1. injection X1 as <-.
        assert (NE: Fn l (ileaves F P t' off) <> []).
        { intros E2. apply X5.
          assert (Ez: ileaves F P (mkT (t_pc t) 0 0 (a_lab a) false) off
                   = ileaves F P (mkT (t_pc t + 1) 0 0 (a_lab a) false) off).
          { rewrite (il_unfold P A F W (mkT (t_pc t) 0 0 (a_lab a) false) _ _ _ Ha Hwd), Ho. reflexivity. }
          rewrite Ez.
          eapply (il_same_empty P F l w off t'); [split; simpl; auto|exact E2]. }
        destruct (Fn l (ileaves F P t' off)) as [|y ys] eqn:EF; [congruence|].
        assert (Hy: forall x, In x (y :: ys) -> fst x = t_start t /\ off < snd x /\ (t_label t <> NOLABEL -> t_label t = l)).
        { intros x Hx'. rewrite <- EF in Hx'. apply (Fn_il_start l t' m x); auto. }
        assert (Hrel: t_label t = NOLABEL \/ t_label t = l).
        { destruct (N.eq_dec (t_label t) NOLABEL); auto. right. apply (Hy y); auto. left; auto. }
        destruct (Hblk l Hrel) as (HN & Hme).
        destruct Q9 as (hs & G1 & G2 & G3).
        destruct Hme as [Hme|Hme].
        2:{ left. specialize (Q4 l). unfold st1, me in Q4. simpl in Q4. unfold me in Hme |- *. lia. }
        specialize (G3 l false [] [] (Forall_nil _) (Forall_nil _)). simpl in G3.
        rewrite !app_nil_r in G3. rewrite EF in G3. unfold st1 in G3. simpl in G3. rewrite HN in G3.
        simpl in G3. destruct y as [ys0 ye].
        destruct (Hy (ys0, ye)) as (Y1 & Y2 & _); [left; auto|]. simpl in Y1, Y2.
        assert (Em': me (with_checks st (w_off wd :: s_checks st)) l = me st l) by reflexivity.
        rewrite Em' in G3. destruct (N.leb_spec (me st l) ys0) as [Hle|]; [|lia].
        destruct (hits_of l hs) as [|h0 hr] eqn:EH.
        -- right. exists (ys0, ye). simpl in G3. rewrite <- G3. split; [left; auto|auto].
        -- left. simpl in G3. injection G3 as G3a G3b.
           assert (In (ys0, ye) (hits_of l hs)) as Hin by (rewrite EH, G3a; left; auto).
           unfold hits_of in Hin. apply in_map_iff in Hin. destruct Hin as (h & Eh & Hh).
           apply filter_In in Hh. destruct Hh as (Hh & El'). apply N.eqb_eq in El'.
           rewrite Forall_forall in G2. specialize (G2 h Hh). injection Eh as Eh1 Eh2.
           rewrite El' in G2. lia.
  - (* LABEL *)
    simpl. rewrite Hfetch. simpl. rewrite Ho.
    destruct Hi as (El & Hlw & Hx2).
    apply arrive_lt_some in Hx2. destruct Hx2 as (Ar2 & a2 & Ha2 & Hr2).
    rewrite get_mend_ok by auto. simpl.
    set (t' := mkT (t_pc t + 1) (t_start t) (t_end t) (w_off wd) (t_lead t)).
    assert (Ar2': arrive P A (t_label t') m (t_pc t')) by (eapply arrive_weaken; [|exact Ar2]; auto).
    assert (Hmf: m = true -> t_label t = w_off wd).
    { intros E. destruct (Hms E) as (_ & E2 & _). destruct Elab as [Elab|(_ & Elab)]; [|congruence].
      destruct El; congruence. }
    pose proof (max_lt_nolabel P A F W).
    destruct (N.leb_spec (me st (w_off wd)) (t_start t)).
    + apply (IH t' a2 m); simpl; auto; try lia.
      * intros E. destruct (Hms E) as (M1 & M2 & M3). split; [exact M1|]. split; [simpl; lia|].
        unfold lead_ok in *. simpl. rewrite <- (Hmf E). exact M3.
      * right. left. auto.
      * intros c0 Hc0. destruct (HL c0 Hc0) as [|(pc & aa & ww & X1 & X2 & X3 & X4 & X5)]; auto.
        right. exists pc, aa, ww. repeat split; auto. lia.
    + unfold pushed; simpl. exists st, R. split; auto.
      apply (post_skip t' st R m); auto; simpl; lia.
  - (* MATCH *)
    simpl. rewrite Hfetch. simpl. rewrite Ho.
    destruct Hi as (Hany & El & Hx2). apply lab_arr_strict in Elab; [|exact Hany]. 
    apply arrive_lt_some in Hx2. destruct Hx2 as (Ar2 & a2 & Ha2 & Hr2).
    rewrite Elab in *. destruct Hlok as [|Hlok]; [contradiction|].
    assert (Hblk: (if s_liveno st then Ok true else find_live P st (t_label t)) =
      Ok (s_liveno st || existsb (fun p => t_label p =? t_label t) (s_next st))).
    { destruct (s_liveno st); auto. rewrite find_live_ok; auto. }
    rewrite Hblk. simpl.
    set (blk := s_liveno st || existsb (fun p => t_label p =? t_label t) (s_next st)).
    set (t' := mkT (t_pc t + 1) (t_start t) off (t_label t) (negb blk)).
    destruct (IH t' a2 true f st R) as (st' & R' & E' & P'); simpl; auto; try lia.
    + intros _. split; [auto|]. split; [auto|]. simpl. intros Hb'. apply negb_true_iff in Hb'.
      unfold blk in Hb'. apply orb_false_iff in Hb'. destruct Hb' as (Hb1 & Hb2).
      unfold lead_ok. simpl. destruct Hfr as [?|[Hfr|Hfr]]; [contradiction| |left; auto].
      right. split; auto. rewrite unblocked; auto. { intros x []. }
      rewrite <- (i_liveno _ I); auto.
    + intros c0 Hc0. destruct (HL c0 Hc0) as [|(pc & aa & ww & X1 & X2 & X3 & X4 & X5)]; auto.
      right. exists pc, aa, ww. repeat split; auto. lia.
    + exists st', R'. split; auto. eapply post_sim; [|exact P'].
      apply il_sim. repeat split.
  - (* HALT *)
    simpl. rewrite Hfetch. simpl. rewrite Ho. unfold pushed; simpl.
    exists st, R. split; auto. apply post_refl; auto.
Qed.

End Sim.
