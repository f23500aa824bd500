(** Lemmas about the idealised engine and leftmost selection (VmSpec.v). *)
From Verif Require Import Base VmModel VmSpec.
Open Scope N_scope.

(** * Leftmost selection *)

Fixpoint gme (me : N) (ms : list (N * N)) : N :=
  match ms with
  | [] => me
  | (s, e) :: r => if me <=? s then gme e r else gme me r
  end.

Definition lists_ok (X : list (N * N)) : Prop := Forall (fun x => fst x < snd x) X.

Lemma greedy_app : forall X Y me, greedy me (X ++ Y) = greedy me X ++ greedy (gme me X) Y.
Proof.
  induction X as [|[s e] X IH]; intros Y me; simpl; auto.
  destruct (me <=? s); simpl; rewrite IH; auto.
Qed.

Lemma gme_app : forall X Y me, gme me (X ++ Y) = gme (gme me X) Y.
Proof.
  induction X as [|[s e] X IH]; intros Y me; simpl; auto.
  destruct (me <=? s); simpl; rewrite IH; auto.
Qed.

Lemma gme_mono : forall X me, lists_ok X -> me <= gme me X.
Proof.
  induction X as [|[s e] X IH]; intros me H; simpl; [lia|].
  inversion H; subst; simpl in *.
  destruct (N.leb_spec me s).
  - specialize (IH e H3). lia.
  - apply IH; auto.
Qed.

Lemma greedy_skip : forall Z me, (forall x, In x Z -> fst x < me) -> greedy me Z = [] /\ gme me Z = me.
Proof.
  induction Z as [|[s e] Z IH]; intros me H; simpl; auto.
  assert (s < me) by (apply (H (s, e)); left; auto).
  destruct (N.leb_spec me s); [lia|]. apply IH. intros; apply H; right; auto.
Qed.

Lemma greedy_drop : forall X Z W me, (forall x, In x Z -> fst x < gme me X) ->
  greedy me (X ++ Z ++ W) = greedy me (X ++ W).
Proof.
  intros X Z W me H. rewrite !greedy_app.
  destruct (greedy_skip Z (gme me X) H) as [-> ->]. reflexivity.
Qed.

Lemma greedy_in : forall X me x, In x (greedy me X) -> In x X.
Proof.
  induction X as [|[s e] X IH]; intros me x; simpl; auto.
  destruct (me <=? s); simpl; [intros [H|H]; eauto | eauto].
Qed.

Lemma greedy_gme : forall X me x, lists_ok X -> In x (greedy me X) -> snd x <= gme me X.
Proof.
  induction X as [|[s e] X IH]; intros me x H; simpl; [easy|].
  inversion H; subst; simpl in *.
  destruct (N.leb_spec me s); simpl; [|auto].
  intros [<-|Hx]; [simpl; apply gme_mono; auto | auto].
Qed.

Lemma lists_ok_app X Y : lists_ok (X ++ Y) <-> lists_ok X /\ lists_ok Y.
Proof. apply Forall_app. Qed.

(** * Typing of threads *)

Section Wf.
Variables (P : program) (A : nat -> option ann) (F : nat).
Hypothesis (W : wf P A F).

Lemma max_lt_nolabel : p_maxLabel P < NOLABEL.
Proof. pose proof (wf_maxLabel _ _ _ W). unfold two32, NOLABEL in *. lia. Qed.

Definition op_at (pc : nat) (o : opc) : Prop :=
  exists w, nth_error P.(p_words) pc = Some w /\ w_op w = o.

Lemma arrive_inv lab m pc : arrive P A lab m pc ->
  exists a w, A pc = Some a /\ nth_error P.(p_words) pc = Some w /\ instr_ok P A pc a w /\
   (a.(a_rk) < F)%nat /\ lab_ok P a.(a_lab) /\ (a.(a_m) = true -> m = true) /\
   (if is_fin P pc then lab <= P.(p_maxLabel) else is_halt P pc = true \/ lab_arr a lab).
Proof.
  intros (a & Ha & Hm & Hl).
  destruct (wf_instr _ _ _ W _ _ Ha) as (Hlab & Hrk & w & Hw & Hi).
  exists a, w. auto 10.
Qed.

Lemma arrive_weaken lab (m m' : bool) pc : (m = true -> m' = true) -> arrive P A lab m pc -> arrive P A lab m' pc.
Proof. intros H (a & Ha & Hm & Hl). exists a. auto. Qed.

Lemma arrive_lab_ok lab m pc : arrive P A lab m pc -> is_halt P pc = false -> lab_ok P lab.
Proof.
  intros H Hh. destruct (arrive_inv _ _ _ H) as (a & w & Ha & Hw & Hi & Hrk & Hl & Hm & Hx).
  destruct (is_fin P pc); [right; auto|]. destruct Hx as [Hx|[Hx|(_ & Hx)]]; [congruence|subst; auto|left; auto].
Qed.

Ltac isfin :=
  unfold is_fin, is_halt in *;
  repeat match goal with
  | H : nth_error (p_words P) ?pc = Some ?w |- _ => rewrite H in *
  | H : w_op ?w = _ |- _ => rewrite H in *
  end.

Lemma lab_arr_strict a lab : a_any a = false -> lab_arr a lab -> a_lab a = lab.
Proof. intros H [?|(? & _)]; auto. congruence. Qed.

(** ** Fuel independence of [ileaves] *)

Lemma arrive_lt_some lab m rk pc : arrive_lt P A lab m rk pc ->
  arrive P A lab m pc /\ exists a, A pc = Some a /\ (a.(a_rk) < rk)%nat.
Proof. intros [H1 H2]. split; auto. destruct H1 as (a & Ha & _). eauto. Qed.

Lemma il_stable : forall n f1 f2 t a off, A (t_pc t) = Some a ->
  (a_rk a < n)%nat -> (a_rk a < f1)%nat -> (a_rk a < f2)%nat ->
  ileaves f1 P t off = ileaves f2 P t off.
Proof.
  induction n as [|n IH]; intros f1 f2 t a off Ha Hn H1 H2; [lia|].
  destruct f1 as [|f1]; [lia|]. destruct f2 as [|f2]; [lia|]. simpl.
  destruct (wf_instr _ _ _ W _ _ Ha) as (_ & _ & w & Hw & Hi). rewrite Hw.
  unfold instr_ok in Hi. destruct (w_op w); auto.
  - destruct Hi as (_ & Hx & x & Hx1 & Hx2).
    apply arrive_lt_some in Hx, Hx2. destruct Hx as (_ & a1 & Ha1 & Hr1), Hx2 as (_ & a2 & Ha2 & Hr2).
    rewrite Hx1. f_equal; eapply IH; simpl; eauto; lia.
  - destruct Hi as (_ & x & Hx1 & Hx2).
    apply arrive_lt_some in Hx2. destruct Hx2 as (_ & a2 & Ha2 & Hr2).
    rewrite Hx1. eapply IH; simpl; eauto; lia.
  - destruct Hi as (_ & _ & Hx). apply arrive_lt_some in Hx. destruct Hx as (_ & a1 & Ha1 & Hr1).
    eapply IH; simpl; eauto; lia.
  - destruct Hi as (_ & _ & Hx). apply arrive_lt_some in Hx. destruct Hx as (_ & a1 & Ha1 & Hr1).
    eapply IH; simpl; eauto; lia.
  - destruct Hi as (_ & _ & Hx). apply arrive_lt_some in Hx. destruct Hx as (_ & a1 & Ha1 & Hr1).
    eapply IH; simpl; eauto; lia.
Qed.

(** One-step unfolding of the expansion, without fuel. *)
Lemma il_unfold t a w off : A (t_pc t) = Some a -> nth_error P.(p_words) (t_pc t) = Some w ->
  ileaves F P t off =
  match w_op w with
  | OpFork => ileaves F P (set_pc t (t.(t_pc) + 2)) off ++
      match nth_error P.(p_words) (t.(t_pc) + 1) with
      | Some x => ileaves F P (set_pc t (N.to_nat x)) off
      | None => []
      end
  | OpJump =>
      match nth_error P.(p_words) (t.(t_pc) + 1) with
      | Some x => ileaves F P (set_pc t (N.to_nat x)) off
      | None => []
      end
  | OpCheckHalt => ileaves F P (set_pc t (t.(t_pc) + 1)) off
  | OpLabel => ileaves F P (mkT (t.(t_pc) + 1) t.(t_start) t.(t_end) (w_off w) t.(t_lead)) off
  | OpMatch => ileaves F P (mkT (t.(t_pc) + 1) t.(t_start) off t.(t_label) false) off
  | OpHalt => []
  | _ => [t]
  end.
Proof.
  intros Ha Hw. destruct (wf_instr _ _ _ W _ _ Ha) as (_ & Hrk & w' & Hw' & Hi).
  rewrite Hw in Hw'. injection Hw' as <-.
  assert (exists f, F = S f) as [f EF] by (destruct F; [lia|eauto]).
  assert (S1: forall t', (exists a', A (t_pc t') = Some a' /\ (a_rk a' < a_rk a)%nat) ->
     ileaves f P t' off = ileaves F P t' off).
  { intros t' (a' & Ha' & Hr'). eapply (il_stable F); eauto; lia. }
  rewrite EF at 1. simpl. rewrite Hw.
  unfold instr_ok in Hi. destruct (w_op w); auto.
  - destruct Hi as (_ & Hx & x & Hx1 & Hx2).
    apply arrive_lt_some in Hx, Hx2. destruct Hx as (_ & Hx), Hx2 as (_ & Hx2).
    rewrite Hx1, !S1; auto.
  - destruct Hi as (_ & x & Hx1 & Hx2). apply arrive_lt_some in Hx2. destruct Hx2 as (_ & Hx2).
    rewrite Hx1, !S1; auto.
  - destruct Hi as (_ & _ & Hx). apply arrive_lt_some in Hx. destruct Hx as (_ & Hx). rewrite S1; auto.
  - destruct Hi as (_ & _ & Hx). apply arrive_lt_some in Hx. destruct Hx as (_ & Hx). rewrite S1; auto.
  - destruct Hi as (_ & _ & Hx). apply arrive_lt_some in Hx. destruct Hx as (_ & Hx). rewrite S1; auto.
Qed.

(** Induction over the expansion: what the engine does between bytes. *)
Lemma il_props : forall n t a m off, A (t_pc t) = Some a -> (a_rk a < n)%nat ->
  arrive P A (t_label t) m (t_pc t) -> (m = true -> t_end t = off) ->
  forall p, In p (ileaves F P t off) ->
   arrive P A (t_label p) true (t_pc p) /\ is_halt P (t_pc p) = false /\
   t_start p = t_start t /\ (t_label t <> NOLABEL -> t_label p = t_label t) /\
   (is_fin P (t_pc p) = true -> t_end p = off).
Proof.
  induction n as [|n IH]; intros t a m off Ha Hn Harr Hend p Hp; [lia|].
  destruct (arrive_inv _ _ _ Harr) as (a' & w & Ha' & Hw & Hi & Hrk & Hl & Hm & Hx).
  rewrite Ha in Ha'; injection Ha' as <-.
  rewrite (il_unfold _ _ _ _ Ha Hw) in Hp.
  assert (Leaf: w_op w <> OpHalt -> In p [t] ->
    arrive P A (t_label p) true (t_pc p) /\ is_halt P (t_pc p) = false /\
    t_start p = t_start t /\ (t_label t <> NOLABEL -> t_label p = t_label t) /\
   (is_fin P (t_pc p) = true -> t_end p = off)).
  { intros Hh [<-|[]]. split; [eapply arrive_weaken; [|exact Harr]; auto|].
    split; [unfold is_halt; rewrite Hw; destruct (w_op w); congruence|].
    split; [auto|]. split; [auto|]. intros Hf. apply Hend, Hm.
    unfold is_fin in Hf; rewrite Hw in Hf. unfold instr_ok in Hi.
    destruct (w_op w); try discriminate. exact Hi. }
  unfold instr_ok in Hi. destruct (w_op w) eqn:Ho; try (apply Leaf; [congruence|exact Hp]);
    try (now destruct Hp); try (now destruct Hi);
    (assert (Elab: lab_arr a (t_label t))
       by (revert Hx; unfold is_fin, is_halt; rewrite Hw, Ho; intros [|]; [discriminate|auto])).
  - (* FORK *)
    destruct Hi as (Hany & Hx0 & x & Hx1 & Hx2). rewrite Hx1 in Hp. apply (lab_arr_strict _ _ Hany) in Elab. 
    apply arrive_lt_some in Hx0, Hx2.
    destruct Hx0 as (Ar1 & a1 & Ha1 & Hr1), Hx2 as (Ar2 & a2 & Ha2 & Hr2).
    rewrite Elab in *.
    apply in_app_iff in Hp. destruct Hp as [Hp|Hp].
    + exact (IH (set_pc t (t_pc t + 2)) a1 m off Ha1 ltac:(lia) (arrive_weaken _ _ _ _ Hm Ar1) Hend p Hp).
    + exact (IH (set_pc t (N.to_nat x)) a2 m off Ha2 ltac:(lia) (arrive_weaken _ _ _ _ Hm Ar2) Hend p Hp).
  - (* JUMP *)
    destruct Hi as (Hany & x & Hx1 & Hx2). rewrite Hx1 in Hp. apply (lab_arr_strict _ _ Hany) in Elab. 
    apply arrive_lt_some in Hx2. destruct Hx2 as (Ar2 & a2 & Ha2 & Hr2). rewrite Elab in *.
    exact (IH (set_pc t (N.to_nat x)) a2 m off Ha2 ltac:(lia) (arrive_weaken _ _ _ _ Hm Ar2) Hend p Hp).
  - (* CHECK *)
    destruct Hi as (Hany & _ & Hx2). apply (lab_arr_strict _ _ Hany) in Elab. 
    apply arrive_lt_some in Hx2. destruct Hx2 as (Ar2 & a2 & Ha2 & Hr2). rewrite Elab in *.
    exact (IH (set_pc t (t_pc t + 1)) a2 m off Ha2 ltac:(lia) (arrive_weaken _ _ _ _ Hm Ar2) Hend p Hp).
  - (* LABEL *)
    destruct Hi as (El & Hwl & Hx2).
    apply arrive_lt_some in Hx2. destruct Hx2 as (Ar2 & a2 & Ha2 & Hr2).
    pose proof (IH (mkT (t_pc t + 1) (t_start t) (t_end t) (w_off w) (t_lead t)) a2 m off Ha2 ltac:(lia) (arrive_weaken _ _ _ _ Hm Ar2) Hend p Hp) as Hq.
    simpl in Hq. destruct Hq as (H1 & H2 & H3 & H4 & H5).
    split; [|split; [|split; [|split]]]; auto. intros Hn'. destruct Elab as [Elab|(_ & Elab)]; [|congruence].
    destruct El as [El|El]; [congruence|]. rewrite H4; [congruence|]. pose proof max_lt_nolabel. lia.
  - (* MATCH *)
    destruct Hi as (Hany & El & Hx2). apply (lab_arr_strict _ _ Hany) in Elab. 
    apply arrive_lt_some in Hx2. destruct Hx2 as (Ar2 & a2 & Ha2 & Hr2). rewrite Elab in *.
    exact (IH (mkT (t_pc t + 1) (t_start t) off (t_label t) false) a2 true off Ha2 ltac:(lia) Ar2 (fun _ => eq_refl) p Hp).
Qed.

Lemma il_arrive t m off p : arrive P A (t_label t) m (t_pc t) -> (m = true -> t_end t = off) ->
  In p (ileaves F P t off) ->
   arrive P A (t_label p) true (t_pc p) /\ is_halt P (t_pc p) = false /\
   t_start p = t_start t /\ (t_label t <> NOLABEL -> t_label p = t_label t) /\
   (is_fin P (t_pc p) = true -> t_end p = off).
Proof.
  intros Harr Hend Hp. pose proof Harr as (a & Ha & _).
  eapply (il_props (S (a_rk a))); eauto.
Qed.

(** ** Reading a byte *)

Lemma exec_byte_fin t b : is_fin P (t_pc t) = true -> exec_byte P t b = Ok (Some t).
Proof.
  unfold is_fin, exec_byte, fetch, get. destruct (nth_error (p_words P) (t_pc t)) as [w|]; [|discriminate].
  simpl. destruct (w_op w); try discriminate. auto.
Qed.

Lemma exec_byte_halt t b : is_halt P (t_pc t) = true -> exec_byte P t b = Ok None.
Proof.
  unfold is_halt, exec_byte, fetch, get. destruct (nth_error (p_words P) (t_pc t)) as [w|]; [|discriminate].
  simpl. destruct (w_op w); try discriminate. auto.
Qed.

Definition steps_here (o : opc) : bool :=
  match o with
  | OpJumpTable | OpByte | OpBitVector | OpEither | OpRange | OpAny => true
  | _ => false
  end.

Lemma exec_byte_ok t m b : b < 256 -> arrive P A (t_label t) m (t_pc t) -> is_fin P (t_pc t) = false ->
  exists o, exec_byte P t b = Ok o /\
    forall t1, o = Some t1 -> t1 = set_pc t (t_pc t1) /\ arrive P A (t_label t) false (t_pc t1).
Proof.
  intros Hb Harr Hfin.
  destruct (arrive_inv _ _ _ Harr) as (a & w & Ha & Hw & Hi & Hrk & Hl & Hm & Hx).
  rewrite Hfin in Hx. unfold exec_byte, fetch, get. rewrite Hw. simpl.
  unfold is_fin, is_halt in *. rewrite Hw in *. unfold instr_ok in Hi.
  destruct (w_op w) eqn:Ho; try discriminate; try (destruct Hx as [Hx|Hx]; [discriminate|]);
    try (eexists; split; [reflexivity|]; intros; discriminate).
  - destruct (N.leb_spec (w_first w) b); simpl; [|eexists; split; [reflexivity|]; intros; discriminate].
    destruct (N.leb_spec b (w_last w)); simpl; [|eexists; split; [reflexivity|]; intros; discriminate].
    destruct (Hi b) as (x & Hx1 & Hx2); auto. rewrite Hx1. simpl.
    destruct (N.eqb_spec x 0); [eexists; split; [reflexivity|]; intros; discriminate|].
    destruct Hx2 as [|Hx2]; [contradiction|].
    eexists; split; [reflexivity|]. intros t1 [= <-]. simpl. auto.
  - destruct (xorb _ _); eexists; (split; [reflexivity|]); intros t1; try discriminate.
    intros [= <-]. simpl. auto.
  - destruct Hi as [Hsz Hi].
    destruct (nth_error (p_words P) (t_pc t + 1 + N.to_nat (b / 32))) as [v|] eqn:Hv.
    2:{ apply nth_error_None in Hv. lia. }
    simpl. destruct (N.testbit v (b mod 32)); eexists; (split; [reflexivity|]); intros t1; try discriminate.
    intros [= <-]. simpl. auto.
  - destruct (xorb _ _); eexists; (split; [reflexivity|]); intros t1; try discriminate.
    intros [= <-]. simpl. auto.
  - destruct (xorb _ _); eexists; (split; [reflexivity|]); intros t1; try discriminate.
    intros [= <-]. simpl. auto.
  - eexists; (split; [reflexivity|]); intros t1. intros [= <-]. simpl. auto.
Qed.

(** ** Matches of a thread *)


Lemma fut_unfold l b w off t : is_fin P (t_pc t) = false ->
  fut F P l (b :: w) off t =
  match exec_byte P t b with
  | Ok (Some t1) => flat_map (fut F P l w (off + 1)) (ileaves F P t1 off)
  | _ => []
  end.
Proof.
  intros H. simpl. rewrite H. unfold istep. destruct (exec_byte P t b) as [[?|]| | |]; auto.
Qed.

Lemma fut_fin l w off t : is_fin P (t_pc t) = true ->
  fut F P l w off t = if t.(t_label) =? l then [(t.(t_start), t.(t_end) + 1)] else [].
Proof. intros H. destruct w; simpl; rewrite H; auto. Qed.

Lemma fut_halt l w off t : is_halt P (t_pc t) = true -> fut F P l w off t = [].
Proof.
  intros H. assert (is_fin P (t_pc t) = false) as Hf.
  { unfold is_fin, is_halt in *. destruct (nth_error _ _) as [x|]; auto. destruct (w_op x); auto. }
  destruct w; simpl; rewrite Hf; auto.
  unfold istep. rewrite exec_byte_halt; auto.
Qed.

(** Every match of a thread starts where the thread does, ends after the current offset,
    and is for the thread's keyword. *)
Lemma fut_in l : forall w off t m x, bytes w -> arrive P A (t_label t) m (t_pc t) ->
  In x (fut F P l w off t) ->
  fst x = t_start t /\
  (if is_fin P (t_pc t) then snd x = t_end t + 1 else off < snd x) /\
  (t_label t <> NOLABEL -> t_label t = l).
Proof.
  induction w as [|b w IH]; intros off t m x Hb Harr Hx.
  - simpl in Hx. destruct (is_fin P (t_pc t)) eqn:Hf; [|easy].
    destruct (N.eqb_spec (t_label t) l); [|easy]. destruct Hx as [<-|[]]. auto.
  - destruct (is_fin P (t_pc t)) eqn:Hf.
    { rewrite fut_fin in Hx by auto.
      destruct (N.eqb_spec (t_label t) l); [|easy]. destruct Hx as [<-|[]]. auto. }
    rewrite fut_unfold in Hx by auto. inversion Hb; subst.
    destruct (exec_byte_ok t m b) as (o & Ho & Ht1); auto. rewrite Ho in Hx.
    destruct o as [t1|]; [|easy]. destruct (Ht1 t1 eq_refl) as (E & Harr1).
    assert (El: t_label t1 = t_label t) by (rewrite E; auto).
    assert (Es: t_start t1 = t_start t) by (rewrite E; auto).
    apply in_flat_map in Hx. destruct Hx as (p & Hp & Hx).
    rewrite <- El in Harr1.
    apply (il_arrive t1 false) in Hp; auto; [|discriminate].
    destruct Hp as (Q1 & Q2 & Q3 & Q4 & Q5).
    eapply IH in Hx; eauto. destruct Hx as (X1 & X2 & X3).
    split; [congruence|]. split.
    + destruct (is_fin P (t_pc p)) eqn:Hfp; [|lia]. rewrite Q5 in X2 by auto. lia.
    + intros Hn. rewrite <- El in *. specialize (Q4 Hn). rewrite Q4 in X3. auto.
Qed.

Lemma fut_other l w off t m : bytes w -> arrive P A (t_label t) m (t_pc t) ->
  t_label t <> NOLABEL -> t_label t <> l -> fut F P l w off t = [].
Proof.
  intros Hb Harr Hn Hl. destruct (fut F P l w off t) as [|x r] eqn:E; auto.
  destruct (fut_in l w off t m x) as (_ & _ & H); auto. rewrite E; left; auto. exfalso; auto.
Qed.

(** Whether there is any match depends on the program counter and label only. *)
Definition same_pl (t1 t2 : thread) : Prop := t_pc t1 = t_pc t2 /\ t_label t1 = t_label t2.

Lemma il_same off1 off2 : forall f t1 t2, same_pl t1 t2 ->
  Forall2 same_pl (ileaves f P t1 off1) (ileaves f P t2 off2).
Proof.
  induction f as [|f IH]; intros t1 t2 [Hp Hl]; simpl; auto.
  rewrite Hp. destruct (nth_error _ (t_pc t2)) as [w|] eqn:Hw; auto.
  destruct (w_op w); auto; try (constructor; [split; auto|auto]);
    try (apply IH; split; simpl; auto; congruence).
  - apply Forall2_app. apply IH; split; simpl; auto.
    destruct (nth_error _ (t_pc t2 + 1)); auto. apply IH; split; simpl; auto.
  - destruct (nth_error _ (t_pc t2 + 1)); auto. apply IH; split; simpl; auto.
Qed.

Lemma exec_same t1 t2 b : same_pl t1 t2 ->
  match exec_byte P t1 b, exec_byte P t2 b with
  | Ok (Some u1), Ok (Some u2) => same_pl u1 u2
  | Ok None, Ok None => True
  | UB, UB => True | Fuel, Fuel => True | Throw, Throw => True
  | _, _ => False
  end.
Proof.
  intros [Hp Hl]. unfold exec_byte. rewrite Hp. unfold fetch, get.
  destruct (nth_error _ (t_pc t2)) as [w|]; simpl; auto.
  destruct (w_op w); simpl; auto.
  - destruct (_ && _); auto. destruct (nth_error _ _); simpl; auto.
    destruct (_ =? _); auto. split; auto.
  - destruct (xorb _ _); auto; split; auto.
  - destruct (nth_error _ _); simpl; auto. destruct (N.testbit _ _); auto; split; auto.
  - destruct (xorb _ _); auto; split; auto.
  - destruct (xorb _ _); auto; split; auto.
  - split; auto.
  - split; auto.
Qed.

Lemma flat_map_empty_same {X} (R : X -> X -> Prop) (f g : X -> list (N*N)) l1 l2 :
  (forall x y, R x y -> f x = [] -> g y = []) -> Forall2 R l1 l2 ->
  flat_map f l1 = [] -> flat_map g l2 = [].
Proof.
  intros H HF. induction HF; simpl; auto. intros E. apply app_eq_nil in E. destruct E.
  rewrite (H x y); auto.
Qed.

Lemma fut_same_empty l : forall w off t1 t2, same_pl t1 t2 ->
  fut F P l w off t1 = [] -> fut F P l w off t2 = [].
Proof.
  induction w as [|b w IH]; intros off t1 t2 S.
  - destruct S as [Hp Hl]. simpl. rewrite Hp, Hl. destruct (is_fin P (t_pc t2)); auto.
    destruct (_ =? _); auto. discriminate.
  - pose proof S as [Hp Hl].
    destruct (is_fin P (t_pc t2)) eqn:Hf.
    + rewrite !fut_fin by congruence. rewrite Hl. destruct (_ =? _); auto. discriminate.
    + rewrite !fut_unfold by congruence. pose proof (exec_same t1 t2 b S) as H.
      destruct (exec_byte P t1 b) as [[u1|]| | |], (exec_byte P t2 b) as [[u2|]| | |]; auto; try easy.
      apply flat_map_empty_same with (R := same_pl); [intros; eapply IH; eauto | apply il_same; auto].
Qed.

Lemma il_same_empty l w off : forall t1 t2, same_pl t1 t2 ->
  flat_map (fut F P l w (off + 1)) (ileaves F P t1 off) = [] ->
  flat_map (fut F P l w (off + 1)) (ileaves F P t2 off) = [].
Proof.
  intros t1 t2 S. apply flat_map_empty_same with (R := same_pl).
  - intros; eapply fut_same_empty; eauto.
  - apply il_same; auto.
Qed.

End Wf.
