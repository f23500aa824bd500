(** A boolean checker for well-formedness with a given annotation, for concrete programs. *)
From Verif Require Import Base VmModel VmSpec VmIdeal.
Open Scope N_scope.

Definition annot (al : list (option ann)) (pc : nat) : option ann := nth pc al None.

Definition arriveb (P : program) (al : list (option ann)) (lab : N) (m : bool) (pc : nat) : bool :=
  match annot al pc with
  | None => false
  | Some a =>
      implb (a_m a) m &&
      (if is_fin P pc then lab <=? p_maxLabel P
       else is_halt P pc || (a_lab a =? lab) || (a_any a && (lab =? NOLABEL)))
  end.

Lemma arriveb_ok P al lab m pc : arriveb P al lab m pc = true -> arrive P (annot al) lab m pc.
Proof.
  unfold arriveb, arrive. destruct (annot al pc) as [a|]; [|discriminate]. intros H.
  apply andb_true_iff in H. destruct H as (H1 & H2). exists a. split; auto. split.
  - intros E. rewrite E in H1. destruct m; auto.
  - destruct (is_fin P pc); [apply N.leb_le; auto|].
    apply orb_true_iff in H2. destruct H2 as [H2|H2].
    + apply orb_true_iff in H2. destruct H2 as [H2|H2]; [left; auto|right; left; apply N.eqb_eq; auto].
    + right. right. apply andb_true_iff in H2. destruct H2. split; auto. apply N.eqb_eq; auto.
Qed.

Definition arrive_ltb P al lab m (rk : nat) pc : bool :=
  arriveb P al lab m pc &&
  match annot al pc with Some a => (a_rk a <? rk)%nat | None => false end.

Lemma arrive_ltb_ok P al lab m rk pc : arrive_ltb P al lab m rk pc = true -> arrive_lt P (annot al) lab m rk pc.
Proof.
  unfold arrive_ltb, arrive_lt. intros H. apply andb_true_iff in H. destruct H as (H1 & H2).
  split; [apply arriveb_ok; auto|]. intros a Ha. rewrite Ha in H2. apply Nat.ltb_lt; auto.
Qed.

Definition arrive_allb P al (a : ann) m pc : bool :=
  arriveb P al (a_lab a) m pc && implb (a_any a) (arriveb P al NOLABEL m pc).

Lemma arrive_allb_ok P al a m pc : arrive_allb P al a m pc = true -> arrive_all P (annot al) a m pc.
Proof.
  unfold arrive_allb. intros H lab Hl. apply andb_true_iff in H. destruct H as (H1 & H2).
  destruct Hl as [<-|(E & ->)]; apply arriveb_ok; auto. rewrite E in H2. auto.
Qed.

Definition instr_okb (P : program) (al : list (option ann)) (pc : nat) (a : ann) (w : N) : bool :=
  match w_op w with
  | OpJumpTable =>
      forallb (fun k => match nth_error (p_words P) (pc + 1 + k) with
                        | Some x => (x =? 0) || arrive_allb P al a false (N.to_nat x)
                        | None => false
                        end) (seq 0 (N.to_nat (w_last w + 1 - w_first w)))
  | OpByte | OpEither | OpRange | OpAny => arrive_allb P al a false (pc + 1)
  | OpBitVector => (pc + 9 <=? length (p_words P))%nat && arrive_allb P al a false (pc + 9)
  | OpFinish => a_m a
  | OpFork =>
      negb (a_any a) && arrive_ltb P al (a_lab a) (a_m a) (a_rk a) (pc + 2) &&
      match nth_error (p_words P) (pc + 1) with
      | Some x => arrive_ltb P al (a_lab a) (a_m a) (a_rk a) (N.to_nat x)
      | None => false
      end
  | OpJump =>
      negb (a_any a) &&
      match nth_error (p_words P) (pc + 1) with
      | Some x => arrive_ltb P al (a_lab a) (a_m a) (a_rk a) (N.to_nat x)
      | None => false
      end
  | OpCheckHalt =>
      negb (a_any a) && (w_off w <=? p_maxCheck P) && arrive_ltb P al (a_lab a) (a_m a) (a_rk a) (pc + 1)
  | OpLabel =>
      ((a_lab a =? NOLABEL) || (a_lab a =? w_off w)) && (w_off w <=? p_maxLabel P) &&
      arrive_ltb P al (w_off w) (a_m a) (a_rk a) (pc + 1)
  | OpMatch => negb (a_any a) && negb (a_lab a =? NOLABEL) && arrive_ltb P al (a_lab a) true (a_rk a) (pc + 1)
  | OpHalt => true
  | OpOther => false
  end.

Ltac bsplit H := repeat (apply andb_true_iff in H; let H' := fresh H in destruct H as (H & H')).

Lemma instr_okb_ok P al pc a w : instr_okb P al pc a w = true -> instr_ok P (annot al) pc a w.
Proof.
  unfold instr_okb, instr_ok. destruct (w_op w); intros H; auto using arrive_allb_ok; try discriminate.
  - intros b H1 H2. rewrite forallb_forall in H. specialize (H (N.to_nat (b - w_first w))).
    destruct (nth_error (p_words P) (pc + 1 + N.to_nat (b - w_first w))) as [x|].
    + exists x. split; auto. assert (Hin: In (N.to_nat (b - w_first w)) (seq 0 (N.to_nat (w_last w + 1 - w_first w)))).
      { apply in_seq. lia. }
      specialize (H Hin). apply orb_true_iff in H. destruct H as [H|H]; [left; apply N.eqb_eq; auto|].
      right. apply arrive_allb_ok; auto.
    + assert (false = true); [|discriminate]. apply H. apply in_seq. lia.
  - bsplit H. split; [apply Nat.leb_le; auto|apply arrive_allb_ok; auto].
  - bsplit H. destruct (nth_error (p_words P) (pc + 1)) as [x|]; [|discriminate].
    split; [apply negb_true_iff; auto|]. split; [apply arrive_ltb_ok; auto|]. exists x. split; auto.
    apply arrive_ltb_ok; auto.
  - bsplit H. destruct (nth_error (p_words P) (pc + 1)) as [x|]; [|discriminate].
    split; [apply negb_true_iff; auto|]. exists x. split; auto. apply arrive_ltb_ok; auto.
  - bsplit H. split; [apply negb_true_iff; auto|]. split; [apply N.leb_le; auto|apply arrive_ltb_ok; auto].
  - bsplit H. split; [|split; [apply N.leb_le; auto|apply arrive_ltb_ok; auto]].
    apply orb_true_iff in H. destruct H as [H|H]; apply N.eqb_eq in H; auto.
  - bsplit H. split; [apply negb_true_iff; auto|]. split; [|apply arrive_ltb_ok; auto].
    apply negb_true_iff, N.eqb_neq in H1. auto.
Qed.

Definition check_ids (P : program) (al : list (option ann)) : list N :=
  flat_map (fun pc => match annot al pc, nth_error (p_words P) pc with
                      | Some _, Some w => match w_op w with OpCheckHalt => [w_off w] | _ => [] end
                      | _, _ => []
                      end) (seq 0 (length al)).

Fixpoint nodupb (l : list N) : bool :=
  match l with [] => true | x :: r => negb (existsb (N.eqb x) r) && nodupb r end.

Lemma nodupb_ok l : nodupb l = true -> NoDup l.
Proof.
  induction l as [|x l IH]; simpl; intros H; constructor; bsplit H; auto.
  intros Hin. apply negb_true_iff in H. assert (existsb (N.eqb x) l = true); [|congruence].
  apply existsb_exists. exists x. split; auto. apply N.eqb_refl.
Qed.

Definition wfb (P : program) (al : list (option ann)) (F : nat) : bool :=
  (2 <=? length (p_words P))%nat && (p_maxLabel P + 1 <? two32) && (p_maxCheck P + 1 <? two32) &&
  is_halt P (progEnd P) &&
  forallb (fun pc => match annot al pc with
                     | None => true
                     | Some a =>
                         ((a_lab a =? NOLABEL) || (a_lab a <=? p_maxLabel P)) && (a_rk a <? F)%nat &&
                         match nth_error (p_words P) pc with
                         | Some w => instr_okb P al pc a w
                         | None => false
                         end
                     end) (seq 0 (length al)) &&
  nodupb (check_ids P al).

Lemma nodup_app_r {X} (a b : list X) : NoDup (a ++ b) -> NoDup b.
Proof. induction a; simpl; auto. intros H. inversion H; auto. Qed.

Lemma nodup_flat_map {X} (f : X -> list N) : forall L x y v, NoDup (flat_map f L) -> NoDup L ->
  In x L -> In y L -> f x = [v] -> f y = [v] -> x = y.
Proof.
  induction L as [|a L IH]; simpl; intros x y v Hnd HL Hx Hy Ex Ey; [easy|].
  inversion HL; subst.
  assert (Hsub: NoDup (flat_map f L)). { apply nodup_app_r in Hnd. auto. }
  assert (Hdis: forall z, In z L -> f z = [v] -> f a = [v] -> False).
  { intros z Hz Ez Ea. rewrite Ea in Hnd. simpl in Hnd. inversion Hnd; subst. apply H3.
    apply in_flat_map. exists z. split; auto. rewrite Ez. left; auto. }
  destruct Hx as [<-|Hx], Hy as [<-|Hy]; auto.
  - exfalso. eapply Hdis; eauto.
  - exfalso. eapply Hdis; eauto.
  - eapply IH; eauto.
Qed.

Theorem wfb_ok P al F : wfb P al F = true -> wf P (annot al) F.
Proof.
  unfold wfb. intros H. bsplit H. rewrite forallb_forall in H1.
  assert (Hin: forall pc a, annot al pc = Some a -> In pc (seq 0 (length al))).
  { intros pc a Ha. apply in_seq. unfold annot in Ha.
    destruct (lt_dec pc (length al)); [lia|]. rewrite nth_overflow in Ha by lia. discriminate. }
  constructor; auto.
  - apply Nat.leb_le; auto.
  - apply N.ltb_lt; auto.
  - apply N.ltb_lt; auto.
  - intros pc a Ha. specialize (H1 pc (Hin _ _ Ha)). rewrite Ha in H1. bsplit H1.
    destruct (nth_error (p_words P) pc) as [w|]; [|discriminate].
    split. { apply orb_true_iff in H1. destruct H1 as [E|E]; [left; apply N.eqb_eq; auto|right; apply N.leb_le; auto]. }
    split; [apply Nat.ltb_lt; auto|]. exists w. split; auto. apply instr_okb_ok; auto.
  - intros pc1 pc2 a1 a2 w1 w2 A1 A2 E1 E2 O1 O2 EQ.
    apply nodupb_ok in H0. unfold check_ids in H0.
    eapply (nodup_flat_map _ _ pc1 pc2 (w_off w1) H0); eauto using seq_NoDup.
    + rewrite A1, E1, O1. auto.
    + rewrite A2, E2, O2, EQ. auto.
Qed.
