(** What compiled programs match is what the automaton matches. *)
From Verif Require Import Base InstrModel NfaModel CodegenModel CodegenSpec CodegenLayout CodegenCode CodegenAnn CodegenWf.
From Verif Require Import VmModel VmSpec VmIdeal VmGeneric VmCalls VmCheck VmRunnable.
Open Scope N_scope.

(** * First results *)

Lemma first_some_app {A B} (f : A -> option B) l1 l2 :
  first_some f (l1 ++ l2) = match first_some f l1 with Some b => Some b | None => first_some f l2 end.
Proof. induction l1 as [|a l1 IH]; simpl; auto. destruct (f a); auto. Qed.

Lemma first_some_ext {A B} (f1 f2 : A -> option B) l : (forall a, In a l -> f1 a = f2 a) -> first_some f1 l = first_some f2 l.
Proof.
  induction l as [|a l IH]; intros H; simpl; auto. rewrite (H a (or_introl eq_refl)), IH; auto.
  intros b Hb. apply H. right. auto.
Qed.

Lemma first_some_map {A B C} (f : B -> option C) (k : A -> B) l : first_some f (map k l) = first_some (fun a => f (k a)) l.
Proof. induction l as [|a l IH]; simpl; auto. rewrite IH. auto. Qed.

Lemma first_some_none {A B} (f : A -> option B) l : (forall a, In a l -> f a = None) -> first_some f l = None.
Proof. induction l as [|a l IH]; intros H; simpl; auto. rewrite (H a (or_introl eq_refl)). apply IH. intros; apply H; right; auto. Qed.

Lemma first_some_in {A B} (f : A -> option B) l a : In a l -> first_some f l = None -> f a = None.
Proof. induction l as [|b l IH]; simpl; [easy|]. destruct (f b) eqn:E; [discriminate|]. intros [->|H]; auto. Qed.

Lemma first_some_filter {A B} (p : A -> bool) (f : A -> option B) l :
  first_some f (filter p l) = first_some (fun a => if p a then f a else None) l.
Proof. induction l as [|a l IH]; simpl; auto. destruct (p a); simpl; rewrite IH; auto. Qed.

Lemma first_some_dedup {B} (f : nat -> option B) : forall l acc,
  first_some f (fold_left dedup_add l acc) = first_some f (acc ++ l).
Proof.
  induction l as [|a l IH]; intros acc; simpl; [rewrite app_nil_r; auto|].
  rewrite IH. unfold dedup_add. destruct (existsb (Nat.eqb a) acc) eqn:E.
  - rewrite !first_some_app. simpl. destruct (first_some f acc) eqn:Ef; auto.
    apply existsb_exists in E. destruct E as (u & Hu & Eu). apply Nat.eqb_eq in Eu. subst u.
    rewrite (first_some_in f acc a Hu Ef). auto.
  - rewrite <- app_assoc. auto.
Qed.

Lemma first_some_flat {A B C} (f : B -> option C) (k : A -> list B) l :
  first_some f (flat_map k l) = first_some (fun a => first_some f (k a)) l.
Proof. induction l as [|a l IH]; simpl; auto. rewrite first_some_app, IH. auto. Qed.

Lemma hd_flat {A B C} (p : B -> C) (k : A -> list B) l :
  hd_error (map p (flat_map k l)) = first_some (fun a => hd_error (map p (k a))) l.
Proof.
  induction l as [|a l IH]; simpl; auto. rewrite map_app.
  destruct (k a) as [|b r]; simpl; auto.
Qed.

Section Sem.
Variables (g : nfa) (K : nat -> N) (h : helper) (order : list nat) (P : program).
Hypothesis G : good g K.
Hypothesis L : layout g h order.
Hypothesis WR : written g h order P.

Notation start := (start h).
Notation len := (len h).
Notation guard := (guard h).
Notation code := (code_of g h).
Notation An := (An g K h order).
Notation ex := (ex g h).

(** Enough fuel. *)
Definition Fu : nat := (2 * guard + 3)%nat.
Notation F := Fu.

Let wfP : wf P An F := compiled_wf g K h order P G L WR.

(** The preferred end of a match that a thread reaches. *)
Definition fh (l : N) (w : list N) (off : N) (t : thread) : option N := hd_error (map snd (fut F P l w off t)).

Lemma fh_step l b w off t : is_fin P (t_pc t) = false ->
  fh l (b :: w) off t = match exec_byte P t b with
                        | Ok (Some t1) => first_some (fh l w (off + 1)) (ileaves F P t1 off)
                        | _ => None
                        end.
Proof.
  intros H. unfold fh. rewrite fut_unfold by auto. destruct (exec_byte P t b) as [[t1|]| | |]; auto.
  rewrite hd_flat. auto.
Qed.

Lemma fh_nil l off t : is_fin P (t_pc t) = false -> fh l [] off t = None.
Proof. intros H. unfold fh. simpl. rewrite H. auto. Qed.

Lemma fh_fin l w off t : is_fin P (t_pc t) = true -> fh l w off t = if t_label t =? l then Some (t_end t + 1) else None.
Proof. intros H. unfold fh. rewrite fut_fin by auto. destruct (t_label t =? l); auto. Qed.

(** ** Leaves of a sequence of instructions *)

Fixpoint run (exit : nat) (pc : nat) (cs : list ins) (t : thread) (off : N) : list thread :=
  match cs with
  | [] => ileaves F P (set_pc t exit) off
  | c :: r =>
      let pc' := (pc + length (ins_words c))%nat in
      match c with
      | ILabel w => run exit pc' r (mkT 0 (t_start t) (t_end t) (w_off w) (t_lead t)) off
      | ICheck w => run exit pc' r t off
      | IMatch => run exit pc' r (mkT 0 (t_start t) off (t_label t) false) off
      | IFin => [set_pc t pc]
      | IFork a => run exit pc' r t off ++ ileaves F P (set_pc t (N.to_nat a)) off
      | IJump a => ileaves F P (set_pc t (N.to_nat a)) off
      end
  end.

Lemma il_run lab base exit off : forall cs m pc t, cs_ok P An lab m base exit cs ->
  agrees An pc (aseq lab m base cs) -> seg (p_words P) pc (W cs) -> exit = (pc + length (W cs))%nat ->
  ileaves F P (set_pc t pc) off = run exit pc cs t off.
Proof.
  induction cs as [|c r IH]; intros m pc t Hok Ha Hs Hx.
  - cbn [W flat_map length] in Hx. rewrite Hx, Nat.add_0_r. auto.
  - set (hdl := Some (mkA lab (is_label c) m (base + length (W (c :: r)))) :: repeat None (length (ins_words c) - 1)) in *.
    assert (Easeq: aseq lab m base (c :: r) = hdl ++ aseq lab (m || is_match c) base r) by reflexivity.
    assert (Hhd: length hdl = length (ins_words c)).
    { unfold hdl. simpl. rewrite repeat_length. pose proof (ins_words_pos c). lia. }
    rewrite Easeq in Ha. apply agrees_app in Ha. destruct Ha as (Ha1 & Ha2). rewrite Hhd in Ha2.
    specialize (Ha1 0%nat _ eq_refl). rewrite Nat.add_0_r in Ha1.
    assert (Hs1: seg (p_words P) pc (ins_words c ++ W r)) by exact Hs.
    apply seg_app in Hs1. destruct Hs1 as (Hc & Hr).
    assert (HWl: length (W (c :: r)) = (length (ins_words c) + length (W r))%nat) by (unfold W; simpl; rewrite app_length; auto).
    assert (Hx': exit = (pc + length (ins_words c) + length (W r))%nat) by lia.
    assert (Next: forall m' t', cs_ok P An lab m' base exit r -> (m || is_match c = m') ->
       ileaves F P (set_pc t' (pc + length (ins_words c))) off = run exit (pc + length (ins_words c)) r t' off).
    { intros m' t' Hr' Em. subst m'. apply (IH _ _ t' Hr' Ha2 Hr Hx'). }
    assert (Un := il_unfold P An F wfP (set_pc t pc)). simpl t_pc in Un. specialize (Un _ (hd 0 (ins_words c)) off Ha1).
    cbn [run].
    destruct c; cbn [ins_words hd is_match] in *; cbn [cs_ok] in Hok.
    + apply seg_cons in Hc. destruct Hc as (Hc & _). rewrite (Un Hc).
      destruct Hok as (H1 & H2 & H3 & H4). rewrite H1. rewrite <- (Next m _ H4 (orb_false_r m)). auto.
    + apply seg_cons in Hc. destruct Hc as (Hc & _). rewrite (Un Hc).
      destruct Hok as (H1 & H2 & H3). rewrite H1. rewrite <- (Next m _ H3 (orb_false_r m)). auto.
    + apply seg_cons in Hc. destruct Hc as (Hc & _). rewrite (Un Hc).
      destruct Hok as (H1 & H2). change (w_op makeMatch) with OpMatch. cbn iota.
      rewrite <- (Next true _ H2 (orb_true_r m)). auto.
    + apply seg_cons in Hc. destruct Hc as (Hc & _). rewrite (Un Hc). reflexivity.
    + unfold makeFork in Hc. apply seg_cons in Hc. destruct Hc as (Hc & Hc2). apply seg_cons in Hc2. destruct Hc2 as (Hc2 & _).
      cbn [makeFork hd] in Un. rewrite (Un Hc). change (w_op 7) with OpFork. cbn iota.
      cbn [set_pc t_pc]. rewrite Hc2. destruct Hok as (H1 & H2 & H3). rewrite N.mod_small by auto.
      f_equal; auto. rewrite <- (Next m _ H3 (orb_false_r m)). reflexivity.
    + unfold makeJump in Hc. apply seg_cons in Hc. destruct Hc as (Hc & Hc2). apply seg_cons in Hc2. destruct Hc2 as (Hc2 & _).
      cbn [makeJump hd] in Un. rewrite (Un Hc). change (w_op 8) with OpJump. cbn iota.
      cbn [set_pc t_pc]. rewrite Hc2. destruct Hok as (H1 & _). rewrite N.mod_small by auto. reflexivity.
Qed.

Lemma run_forks exit t off cs : forall us pc, exists pc',
  run exit pc (map IFork us ++ cs) t off = run exit pc' cs t off ++ flat_map (fun a => ileaves F P (set_pc t (N.to_nat a)) off) (rev us).
Proof.
  induction us as [|u us IH]; intros pc.
  - exists pc. simpl. rewrite app_nil_r. auto.
  - destruct (IH (pc + length (ins_words (IFork u)))%nat) as (pc' & E). exists pc'.
    cbn [map app run]. rewrite E. simpl rev. rewrite flat_map_app. simpl. rewrite app_nil_r, app_assoc. auto.
Qed.

Lemma run_ind exit t off r : forall ls pc, ls <> [] ->
  run exit pc (ind_ins ls ++ r) t off = flat_map (fun a => ileaves F P (set_pc t (N.to_nat a)) off) ls.
Proof.
  intros ls pc Hne. destruct ls as [|l q]; [easy|]. unfold ind_ins. rewrite <- app_assoc.
  destruct (run_forks exit t off ([IJump l] ++ r) (rev q) pc) as (pc' & E). rewrite E, rev_involutive. reflexivity.
Qed.

(** ** Threads at the start of a state *)

Lemma start_byte c x s : code_ok g h P c x s -> (c < length g)%nat -> c <> 0%nat -> is_fin P (start c) = false /\
  forall t off, ileaves F P (set_pc t (start c)) off = [set_pc t (start c)].
Proof.
  intros C Hc Hc0. destruct (ev_cons g h P c x s C Hc0) as (tr & w & r & _ & _ & Hb & _ & _ & Hw & _).
  destruct (byte_not_fin P _ _ Hw Hb) as (Hf & _). split; auto. intros t off.
  rewrite (il_unfold P An F wfP (set_pc t (start c)) _ w off (aev_head g K h order P G L WR c x s C Hc Hc0) Hw).
  destruct (w_op w); try discriminate; auto.
Qed.

Lemma start_exec c x s t b : code_ok g h P c x s -> c <> 0%nat -> b < 256 ->
  exec_byte P (set_pc t (start c)) b =
  Ok (if enters g c b then Some (set_pc t (start c + length (sc_ev (code c)))) else None).
Proof.
  intros C Hc0 Hb. destruct (ev_cons g h P c x s C Hc0) as (tr & w & r & Et & _ & _ & Hi & Hok & _).
  destruct (toInstruction_ok tr _ Hi Hok) as (w' & r' & _ & _ & _ & He).
  rewrite (He P (set_pc t (start c)) b); auto.
  - unfold enters. rewrite (co_x _ _ _ _ _ _ C), Et. auto.
  - apply (parts g h P c x s C).
Qed.

Definition lab_after (x : vertex) (lab : N) : N := if v_label x =? NOLABEL then lab else v_label x.

(** What follows state [v] entered with label [lab]. *)
Definition after (l lab : N) (w : list N) (v : nat) (pos : N) : option N :=
  match w with
  | [] => None
  | b :: w' => first_some (fun c => if enters g c b then best g l lab w' c (pos + 1) else None) (outs g v)
  end.

Lemma best_eq l lab w v x pos : nth_error g v = Some x ->
  best g l lab w v pos = match after l (lab_after x lab) w v pos with
                         | Some e => Some e
                         | None => if v_match x && (lab_after x lab =? l) then Some pos else None
                         end.
Proof.
  intros Ex. unfold after. rewrite (edge_outs _ _ _ Ex). unfold lab_after. destruct w; cbn [best]; rewrite Ex; auto.
Qed.

Definition landing_ok (l : N) (w : list N) : Prop := forall c t off, (c < length g)%nat -> c <> 0%nat ->
  first_some (fh l w (off + 1)) (ileaves F P (set_pc t (start c + length (sc_ev (code c)))) off) = best g l (t_label t) w c (off + 1).

(** A thread at the start of a state enters it if the byte allows. *)
Lemma start_fh l w t off c : bytes w -> (forall b w', w = b :: w' -> landing_ok l w') -> (c < length g)%nat -> c <> 0%nat ->
  fh l w off (set_pc t (start c)) =
  match w with [] => None | b :: w' => if enters g c b then best g l (t_label t) w' c (off + 1) else None end.
Proof.
  intros Hb HL Hc Hc0. destruct (code_of_ok g K h order P G L WR c Hc) as (x & s & C).
  destruct (start_byte c x s C Hc Hc0) as (Hf & _).
  destruct w as [|b w]; [apply fh_nil; auto|]. rewrite fh_step by auto. inversion Hb; subst.
  rewrite (start_exec c x s t b C Hc0) by auto. destruct (enters g c b); auto.
  apply (HL b w eq_refl c t off Hc Hc0).
Qed.

(** Landings are as if the state itself had been entered, even through the shortcut. *)
Lemma land_fh l w t off c : bytes w -> landing_ok l w -> (forall b w', w = b :: w' -> landing_ok l w') ->
  (c < length g)%nat -> c <> 0%nat ->
  first_some (fh l w (off + 1)) (ileaves F P (set_pc t (N.to_nat (land_of g h c))) off) = best g l (t_label t) w c (off + 1).
Proof.
  intros Hb HL HL' Hc Hc0. destruct (code_of_ok g K h order P G L WR c Hc) as (x & s & C).
  destruct (land_eq g K h order P G L WR c x s C Hc) as (_ & ->). destruct (short x) eqn:Es; [|apply HL; auto].
  unfold short in Es. apply andb_true_iff in Es. destruct Es as (Es & Em). apply andb_true_iff in Es. destruct Es as (Eo & El).
  apply negb_true_iff in Em. destruct (v_out x) as [|d [|d2 r]] eqn:Eout; try discriminate. cbn [hd].
  assert (He: edge g c d). { unfold edge. rewrite (edge_outs _ _ _ (co_x _ _ _ _ _ _ C)), Eout. left. auto. }
  destruct (edge_lt g K G c d He) as (Hd & Hd0). destruct (code_of_ok g K h order P G L WR d Hd) as (x' & s' & C').
  destruct (start_byte d x' s' C' Hd Hd0) as (_ & Hi). rewrite Hi. cbn [first_some].
  rewrite (best_eq l _ w c x _ (co_x _ _ _ _ _ _ C)), Em. unfold after, lab_after. rewrite (edge_outs _ _ _ (co_x _ _ _ _ _ _ C)), Eout.
  change NONE32 with NOLABEL in El. rewrite El. rewrite (start_fh l w t (off + 1) d Hb HL' Hd Hd0).
  destruct w as [|b w]; auto. cbn [first_some].
  destruct (enters g d b); auto. destruct (best g l (t_label t) w d (off + 1 + 1)); auto.
Qed.

(** ** Jump tables *)

Lemma ev_pos c : (c < length g)%nat -> c <> 0%nat -> (0 < length (sc_ev (code c)))%nat.
Proof.
  intros Hc Hc0. destruct (code_of_ok g K h order P G L WR c Hc) as (x & s & C).
  destruct (ev_cons g h P c x s C Hc0) as (tr & w & r & _ & E & _). rewrite E. simpl. lia.
Qed.

Lemma start_0_only d : (d < length g)%nat -> d <> 0%nat -> start d = 0%nat -> outs g 0 = [d].
Proof.
  intros Hd Hd0 Es. assert (H0: (0 < length g)%nat) by lia.
  destruct (lens g K h order P G L WR d Hd) as (Hl & _). pose proof (ev_pos d Hd Hd0) as Hp.
  pose proof (start_zero g h order L) as Hz.
  destruct (lens g K h order P G L WR 0 H0) as (Hl0 & _).
  assert (E0: len 0 = 0%nat).
  { destruct (seg_disjoint g h order L 0 d H0 Hd) as [E|E]; try lia. }
  destruct (code_of_ok g K h order P G L WR 0 H0) as (x & s & C).
  destruct (root_snip g K h order G L) as (x' & s' & Ex' & Es' & R1 & R2 & R3 & R4 & R5 & R6).
  rewrite (co_x _ _ _ _ _ _ C) in Ex'. injection Ex' as <-. rewrite (co_s _ _ _ _ _ _ C) in Es'. injection Es' as <-.
  assert (EW: W (sc_seq (code 0)) = []) by (apply length_zero_iff_nil; lia).
  assert (EJ: jt_words (sc_jt (code 0)) = []) by (apply length_zero_iff_nil; lia).
  assert (Esq: sc_seq (code 0) = []).
  { destruct (sc_seq (code 0)) as [|i q] eqn:Eq; auto. exfalso. pose proof (W_pos (i :: q)) as Hw. rewrite EW in Hw. simpl in Hw.
    assert (0 < 0)%nat by (apply Hw; discriminate). lia. }
  assert (Ejt: sn_jt s = false).
  { destruct (sn_jt s) eqn:Ej; auto. rewrite (co_code _ _ _ _ _ _ C), Ej in EJ. discriminate. }
  rewrite (code_seq g h P 0 x s C) in Esq. apply app_eq_nil in Esq. destruct Esq as (_ & Eout).
  unfold out_ins in Eout. rewrite Ejt in Eout. destruct (v_out x) as [|c r] eqn:Eo; [easy|].
  apply app_eq_nil in Eout. destruct Eout as (E1 & E2). destruct (follows h 0 c) eqn:Ef; [|discriminate].
  destruct r as [|c2 r]; [|simpl in E1; destruct (rev (map (sstart h) r)); discriminate].
  pose proof (co_follows _ _ _ _ _ _ C Ejt c [] Eo Ef) as Ec. rewrite E0, Hz in Ec.
  assert (He: edge g 0 c). { unfold edge. rewrite (edge_outs _ _ _ (co_x _ _ _ _ _ _ C)), Eo. left. auto. }
  destruct (edge_lt g K G 0 c He) as (Hc & Hc0). rewrite (edge_outs _ _ _ (co_x _ _ _ _ _ _ C)), Eo. f_equal.
  destruct (Nat.eq_dec c d) as [E|E]; auto. exfalso.
  destruct (lens g K h order P G L WR c Hc) as (Hlc & _). pose proof (ev_pos c Hc Hc0).
  destruct (seg_disjoint g h order L c d Hc Hd E); lia.
Qed.

Lemma land_nonzero u : (u < length g)%nat -> u <> 0%nat -> land_of g h u <> 0.
Proof.
  intros Hu Hu0 E. destruct (code_of_ok g K h order P G L WR u Hu) as (x & s & C).
  destruct (land_eq g K h order P G L WR u x s C Hu) as (_ & El). rewrite E in El. change (N.to_nat 0) with 0%nat in El.
  destruct (short x) eqn:Es.
  - unfold short in Es. apply andb_true_iff in Es. destruct Es as (Es & Em). apply andb_true_iff in Es. destruct Es as (Eo & Elab).
    apply negb_true_iff in Em. destruct (v_out x) as [|d [|d2 r]] eqn:Eout; try discriminate. cbn [hd] in El.
    assert (He: edge g u d). { unfold edge. rewrite (edge_outs _ _ _ (co_x _ _ _ _ _ _ C)), Eout. left. auto. }
    destruct (edge_lt g K G u d He) as (Hd & Hd0). pose proof (start_0_only d Hd Hd0 (eq_sym El)) as Er.
    apply N.eqb_eq in Elab.
    destruct (gd_zero _ _ G d u x Er Hu0 (co_x _ _ _ _ _ _ C) Eout) as [E1|E1]; [congruence|]. apply E1. exact Elab.
  - pose proof (ev_pos u Hu Hu0). lia.
Qed.

Lemma jt_leaf v x s t off : code_ok g h P v x s -> (v < length g)%nat -> sn_jt s = true ->
  is_fin P (ex v) = false /\ ileaves F P (set_pc t (ex v)) off = [set_pc t (ex v)].
Proof.
  intros C Hv Hj. destruct (jt_head_ok g h P v x s C Hj) as (tbl & f & l & w & tt & i & _ & _ & _ & Ej & Ho & _).
  destruct (jt_at g K h order P G L WR v x s _ _ _ _ _ C Hv Ej) as (Hw & _ & _ & HA & _).
  split.
  - unfold is_fin. rewrite Hw, Ho. auto.
  - rewrite (il_unfold P An F wfP (set_pc t (ex v)) _ w off HA Hw), Ho. auto.
Qed.

Lemma first_match (u : list nat) d : u <> [] -> match u with [] => 0%nat | i :: _ => i end = hd d u.
Proof. destruct u; easy. Qed.

Lemma mm_last (u : list nat) f la :
  (match u with [] => 0%nat | i :: _ => i end, if (match u with [] => 0%nat | i :: _ => i end <? last u 0)%nat then last u 0%nat else 255%nat) = (f, la) ->
  la = if (f <? last u 0)%nat then last u 0%nat else 255%nat.
Proof. intros H. assert (E: f = match u with [] => 0%nat | i :: _ => i end) by congruence. rewrite E. congruence. Qed.

Lemma minAndMax_last tbl f la : minAndMax tbl = (f, la) -> la = if (f <? last_used tbl)%nat then last_used tbl else 255%nat.
Proof. exact (mm_last (used tbl) f la). Qed.

Lemma jt_fh l w t off v x s : bytes w -> (forall b w', w = b :: w' -> landing_ok l w' /\ forall b' w'', w' = b' :: w'' -> landing_ok l w'') ->
  code_ok g h P v x s -> (v < length g)%nat -> sn_jt s = true ->
  fh l w off (set_pc t (ex v)) = after l (t_label t) w v off.
Proof.
  intros Hb HL C Hv Hjt. destruct (jt_leaf v x s t off C Hv Hjt) as (Hf & _).
  destruct w as [|b w]; [apply fh_nil; auto|]. rewrite fh_step by auto. inversion Hb as [|? ? Hb1 Hb2]; subst.
  destruct (HL b w eq_refl) as (HL1 & HL2).
  destruct (jt_head_ok g h P v x s C Hjt) as (tbl & f & la & wd & tt & i & Hp & Hmm & Hfl & Ej & Ho & Hfi & Hla & Hj).
  destruct (jt_at g K h order P G L WR v x s _ _ _ _ _ C Hv Ej) as (Hw & _ & _ & HA & _).
  (* the successors that the byte enters *)
  set (cell := fold_left dedup_add (filter (has_byte g b) (outs g v)) []).
  assert (Eafter: after l (t_label t) (b :: w) v off = first_some (fun c => best g l (t_label t) w c (off + 1)) cell).
  { unfold after, cell. rewrite first_some_dedup. simpl app. rewrite first_some_filter.
    apply first_some_ext. intros c _. rewrite has_byte_enters. auto. }
  assert (Hed: forall u, In u cell -> edge g v u).
  { intros u Hu. apply dedup_in in Hu. destruct Hu as [[]|Hu]. apply filter_In in Hu. apply Hu. }
  assert (Hrange: cell <> [] -> (f <= N.to_nat b <= la)%nat).
  { intros Hne.
    assert (Hi: In (N.to_nat b) (used tbl)).
    { apply in_used; [lia|]. rewrite (pivot_cell g v tbl _ Hp) by lia. rewrite N2Nat.id. exact Hne. }
    pose proof (used_first tbl _ Hi) as H1. pose proof (used_last tbl _ Hi) as H2.
    assert (Ef: f = first_used tbl).
    { change f with (fst (f, la)). rewrite <- Hmm. apply first_match. intros E. rewrite E in Hi. destruct Hi. }
    assert (El: la = if (f <? last_used tbl)%nat then last_used tbl else 255%nat).
    { apply (minAndMax_last tbl f la Hmm). }
    destruct (Nat.ltb_spec f (last_used tbl)); lia. }
  rewrite Eafter. unfold exec_byte, fetch, get. cbn [set_pc t_pc]. rewrite Hw. cbn [bind]. rewrite Ho, Hfi, Hla.
  destruct ((N.of_nat f <=? b) && (b <=? N.of_nat la)) eqn:Erange.
  - apply andb_true_iff in Erange. destruct Erange as (Er1 & Er2). apply N.leb_le in Er1, Er2.
    destruct (jt_entry g K h order P G L WR v x s wd f la tt i (N.to_nat b) C Hv Ej) as (e & He1 & He2).
    { exists tbl. auto. } { lia. }
    replace (N.to_nat (b - N.of_nat f)) with (N.to_nat b - f)%nat by lia. rewrite He1. cbn [bind].
    rewrite N2Nat.id in He2. fold cell in He2.
    assert (Hchild: forall u, In u cell -> first_some (fh l w (off + 1)) (ileaves F P (set_pc (set_pc t (ex v)) (N.to_nat (land_of g h u))) off) = best g l (t_label t) w u (off + 1)).
    { intros u Hu. destruct (edge_lt g K G v u (Hed u Hu)) as (Hu1 & Hu2).
      apply (land_fh l w (set_pc t (ex v)) off u Hb2 HL1 HL2 Hu1 Hu2). }
    destruct cell as [|u [|u2 c]] eqn:Ecell.
    + subst e. reflexivity.
    + destruct (edge_lt g K G v u (Hed u (or_introl eq_refl))) as (Hu1 & Hu2).
      destruct (N.eqb_spec e 0) as [E0|E0]; [exfalso; apply (land_nonzero u Hu1 Hu2); congruence|].
      subst e. change (mkT (ex v) (t_start t) (t_end t) (t_label t) (t_lead t)) with (set_pc t (ex v)).
      rewrite Hchild by (left; auto). cbn [first_some]. destruct (best g l (t_label t) w u (off + 1)); auto.
    + destruct He2 as (r & R1 & R2 & R3 & R4).
      destruct (N.eqb_spec e 0) as [E0|E0]; [lia|].
      change (mkT (ex v) (t_start t) (t_end t) (t_label t) (t_lead t)) with (set_pc t (ex v)).
      assert (Erun: ileaves F P (set_pc (set_pc t (ex v)) (N.to_nat e)) off =
        flat_map (fun a => ileaves F P (set_pc (set_pc t (ex v)) (N.to_nat a)) off) (map (land_of g h) (u :: u2 :: c))).
      { rewrite <- (run_ind (N.to_nat e + length (W (ind_ins (map (land_of g h) (u :: u2 :: c)) ++ r)))%nat _ off r _ (N.to_nat e)) by discriminate.
        apply (il_run (K v) (S guard) _ off _ false _ _ (R1 _) R3 R2 eq_refl). }
      rewrite Erun, first_some_flat, first_some_map. apply first_some_ext. intros a Ha. apply Hchild. auto.
  - cbn [bind]. destruct cell as [|u c] eqn:Ecell; auto. exfalso.
    assert (Hr: (f <= N.to_nat b <= la)%nat) by (apply Hrange; discriminate).
    apply andb_false_iff in Erange. destruct Erange as [E|E]; apply N.leb_gt in E; lia.
Qed.

(** ** States entered *)

Lemma out_starts v x s pc t off : code_ok g h P v x s -> (v < length g)%nat -> sn_jt s = false -> v_out x <> [] ->
  run (ex v) pc (out_ins h v x s) t off = map (fun c => set_pc t (start c)) (v_out x).
Proof.
  intros C Hv Ej Ho. unfold out_ins. rewrite Ej. destruct (v_out x) as [|c r] eqn:Eo; [easy|].
  assert (Hed: forall u, In u (c :: r) -> edge g v u).
  { intros u Hu. unfold edge. rewrite (edge_outs _ _ _ (co_x _ _ _ _ _ _ C)), Eo. auto. }
  assert (Hst: forall u, In u (c :: r) -> ileaves F P (set_pc t (start u)) off = [set_pc t (start u)]).
  { intros u Hu. destruct (edge_lt g K G v u (Hed u Hu)) as (Hu1 & Hu2).
    destruct (code_of_ok g K h order P G L WR u Hu1) as (x' & s' & C'). apply (start_byte u x' s' C' Hu1 Hu2). }
  destruct (run_forks (ex v) t off (if follows h v c then [] else [IJump (sstart h c)]) (rev (map (sstart h) r)) pc) as (pc' & E).
  rewrite E, rev_involutive. cbn [map].
  assert (Ehd: run (ex v) pc' (if follows h v c then [] else [IJump (sstart h c)]) t off = [set_pc t (start c)]).
  { destruct (follows h v c) eqn:Ef; cbn [run].
    - assert (Ee: ex v = start c).
      { rewrite (co_follows _ _ _ _ _ _ C Ej c r Eo Ef). destruct (lens g K h order P G L WR v Hv) as (Hlen & _).
        assert (En: sc_jt (code v) = None) by (rewrite (co_code _ _ _ _ _ _ C); cbn [sc_jt]; rewrite Ej; auto).
        rewrite En in Hlen. simpl in Hlen. unfold CodegenWf.ex. lia. }
      rewrite Ee. apply Hst. left; auto.
    - destruct (edge_lt g K G v c (Hed c (or_introl eq_refl))) as (Hc & _). destruct (sstart_start g h order L c Hc) as (-> & _).
      apply Hst. left; auto. }
  rewrite Ehd. cbn [app]. f_equal.
  assert (Hq: forall q, (forall u, In u q -> In u (c :: r)) ->
    flat_map (fun a => ileaves F P (set_pc t (N.to_nat a)) off) (map (sstart h) q) = map (fun c => set_pc t (start c)) q).
  { induction q as [|u q IH]; intros Hin; auto. cbn [map flat_map].
    destruct (edge_lt g K G v u (Hed u (Hin u (or_introl eq_refl)))) as (Hu & _). destruct (sstart_start g h order L u Hu) as (-> & _).
    rewrite (Hst u (Hin u (or_introl eq_refl))), IH; auto. intros; apply Hin; right; auto. }
  apply Hq. intros u Hu. right. auto.
Qed.

Lemma out_fh l w v x s pc t off : bytes w -> (forall b w', w = b :: w' -> landing_ok l w' /\ forall b' w'', w' = b' :: w'' -> landing_ok l w'') ->
  code_ok g h P v x s -> (v < length g)%nat -> v_out x <> [] ->
  first_some (fh l w (off + 1)) (run (ex v) pc (out_ins h v x s) t off) = after l (t_label t) w v (off + 1).
Proof.
  intros Hb HL C Hv Ho. destruct (sn_jt s) eqn:Ej.
  - unfold out_ins. rewrite Ej. cbn [run]. destruct (jt_leaf v x s t off C Hv Ej) as (_ & ->). cbn [first_some].
    rewrite (jt_fh l w t (off + 1) v x s Hb HL C Hv Ej). destruct (after l (t_label t) w v (off + 1)); auto.
  - rewrite (out_starts v x s pc t off C Hv Ej Ho), first_some_map. unfold after. rewrite (edge_outs _ _ _ (co_x _ _ _ _ _ _ C)).
    assert (Hst: forall c, In c (v_out x) -> fh l w (off + 1) (set_pc t (start c)) =
       match w with [] => None | b :: w' => if enters g c b then best g l (t_label t) w' c (off + 1 + 1) else None end).
    { intros c Hc. assert (He: edge g v c) by (unfold edge; rewrite (edge_outs _ _ _ (co_x _ _ _ _ _ _ C)); auto).
      destruct (edge_lt g K G v c He). apply start_fh; auto. intros b w' E. apply (HL b w' E). }
    rewrite (first_some_ext _ _ _ Hst). destruct w; auto. apply first_some_none. auto.
Qed.

Lemma fin_leaf t off pc : nth_error (p_words P) pc = Some makeFinish -> (exists a, An pc = Some a) ->
  is_fin P pc = true /\ ileaves F P (set_pc t pc) off = [set_pc t pc].
Proof.
  intros Hw (a & HA). split; [unfold is_fin; rewrite Hw; auto|].
  rewrite (il_unfold P An F wfP (set_pc t pc) a makeFinish off HA Hw). reflexivity.
Qed.

Lemma landing_step l w : bytes w -> (forall b w', w = b :: w' -> landing_ok l w' /\ forall b' w'', w' = b' :: w'' -> landing_ok l w'') ->
  landing_ok l w.
Proof.
  intros Hb HL c t off Hc Hc0. destruct (code_of_ok g K h order P G L WR c Hc) as (x & s & C).
  destruct (parts g h P c x s C) as (_ & Hs & _). destruct (aparts g K h order P G L WR c Hc) as (_ & Ha & _).
  rewrite (il_run (K c) 0 (ex c) off _ false _ t (seq_ok g K h order P G L WR c x s C Hc) Ha Hs eq_refl).
  rewrite (code_seq g h P c x s C) in *. unfold pre_ins in *. rewrite <- !app_assoc in *.
  rewrite (best_eq l _ w c x _ (co_x _ _ _ _ _ _ C)).
  set (lab := lab_after x (t_label t)).
  set (mt := (if v_match x then IMatch :: match v_out x with [] => [IFin] | _ => [IFork ((h_guard h + 1) mod two32)] end else []) ++ out_ins h c x s) in *.
  (* label and check *)
  assert (Hpre: exists pc t1, t_label t1 = lab /\ seg (p_words P) pc (W mt) /\
     run (ex c) (start c + length (sc_ev (code c)))
      ((if v_label x =? NONE32 then [] else [ILabel (res_or (makeLabel (v_label x)) 0)]) ++
       (if sn_check s =? NONE32 then [] else [ICheck (res_or (makeCheckHalt (sn_check s)) 0)]) ++ mt) t off =
     run (ex c) pc mt t1 off).
  { clearbody mt.
    assert (Hck: forall pc t1, seg (p_words P) pc (W ((if sn_check s =? NONE32 then [] else [ICheck (res_or (makeCheckHalt (sn_check s)) 0)]) ++ mt)) ->
       exists pc', seg (p_words P) pc' (W mt) /\ run (ex c) pc ((if sn_check s =? NONE32 then [] else [ICheck (res_or (makeCheckHalt (sn_check s)) 0)]) ++ mt) t1 off =
         run (ex c) pc' mt t1 off).
    { intros pc t1 Hs1. destruct (sn_check s =? NONE32); [exists pc; auto|].
      exists (pc + 1)%nat. split; [|reflexivity]. rewrite W_app in Hs1. apply seg_app in Hs1. apply Hs1. }
    unfold lab, lab_after. change NOLABEL with NONE32. destruct (N.eqb_spec (v_label x) NONE32) as [E|E].
    - cbn [app] in *. destruct (Hck _ t Hs) as (pc' & H1 & H2). exists pc', t. split; auto. 
    - rewrite W_app in Hs. apply seg_app in Hs. destruct Hs as (_ & Hs).
      set (t1 := mkT 0 (t_start t) (t_end t) (w_off (res_or (makeLabel (v_label x)) 0)) (t_lead t)).
      destruct (Hck _ t1 Hs) as (pc' & H1 & H2). exists pc', t1. split.
      + unfold t1. cbn [t_label]. apply (makeLabel_ok _ _ (co_lab _ _ _ _ _ _ C E)).
      + split; [exact H1|]. rewrite <- H2. reflexivity. }
  destruct Hpre as (pc & t1 & Hlab & Hsm & ->). clearbody lab. subst lab.
  destruct (v_match x) eqn:Em; subst mt.
  - set (t2 := mkT 0 (t_start t1) off (t_label t1) false). cbn [app run]. fold t2.
    destruct (v_out x) as [|d r] eqn:Eo.
    + cbn [app run]. cbn [app] in Hsm. unfold W in Hsm. cbn [flat_map ins_words app] in Hsm.
      apply seg_cons in Hsm. destruct Hsm as (_ & Hsm). apply seg_cons in Hsm. destruct Hsm as (Hfin & _).
      assert (Hf: is_fin P (pc + length (ins_words IMatch)) = true).
      { unfold is_fin. cbn [ins_words length]. rewrite Nat.add_1_r in *. rewrite Hfin. auto. }
      cbn [first_some]. rewrite fh_fin by auto. unfold after. rewrite (edge_outs _ _ _ (co_x _ _ _ _ _ _ C)), Eo.
      cbn [set_pc t_label t_end]. unfold t2. cbn [t_label t_end andb].
      destruct w; cbn [first_some]; destruct (t_label t1 =? l); auto.
    + cbn [app run]. rewrite first_some_app.
      rewrite (out_fh l w c x s _ t2 off Hb HL C Hc) by (rewrite Eo; discriminate).
      change (t_label t2) with (t_label t1). destruct (after l (t_label t1) w c (off + 1)); auto.
      pose proof (ly_bound _ _ _ L). rewrite N.mod_small by lia.
      replace (N.to_nat (h_guard h + 1)) with (guard + 1)%nat by (unfold CodegenCode.guard; lia).
      destruct (fin_leaf t2 off (guard + 1) (wr_finish _ _ _ _ WR) (ex_intro _ _ (An_finish g K h order P G L WR))) as (Hf & ->).
      cbn [first_some]. rewrite fh_fin by auto. unfold t2. cbn [set_pc t_label t_end andb]. destruct (t_label t1 =? l); auto.
  - cbn [app andb]. assert (Ho: v_out x <> []).
    { intros Eo. destruct (gd_state _ _ G c x Hc0 (co_x _ _ _ _ _ _ C)) as (_ & Hm). rewrite Hm in Em by auto. discriminate. }
    rewrite (out_fh l w c x s _ t1 off Hb HL C Hc Ho). destruct (after l (t_label t1) w c (off + 1)); auto.
Qed.

Lemma landing_all l : forall w, bytes w -> landing_ok l w /\ (forall b w', w = b :: w' -> landing_ok l w').
Proof.
  induction w as [|b w IH]; intros Hb.
  - split; [|discriminate]. apply landing_step; auto. discriminate.
  - inversion Hb; subst. specialize (IH H2). split.
    + apply landing_step; auto. intros b' w' E. injection E as <- <-. auto.
    + intros b' w' E. injection E as <- <-. apply IH.
Qed.

(** ** The root *)

Lemma closure_start u f : (u < length g)%nat -> u <> 0%nat -> (0 < f)%nat -> closure f P (start u) = Some [start u].
Proof.
  intros Hu Hu0 Hf. destruct f as [|f]; [lia|]. destruct (code_of_ok g K h order P G L WR u Hu) as (x & s & C).
  destruct (ev_cons g h P u x s C Hu0) as (tr & w & r & _ & _ & Hb & _ & _ & Hw & _).
  simpl. rewrite Hw. destruct (w_op w); try discriminate; auto.
Qed.

Lemma closure_forks c (fl : bool) e : (c < length g)%nat -> c <> 0%nat -> (fl = true -> e = start c) ->
  forall us pc f, (forall u, In u us -> (u < length g)%nat /\ u <> 0%nat) ->
  seg (p_words P) pc (W (map IFork (map (sstart h) us) ++ (if fl then [] else [IJump (sstart h c)]))) ->
  e = (pc + length (W (map IFork (map (sstart h) us) ++ (if fl then [] else [IJump (sstart h c)]))))%nat ->
  (length us + 1 < f)%nat -> closure f P pc = Some (start c :: map start (rev us)).
Proof.
  intros Hc Hc0 Hfl. induction us as [|u us IH]; intros pc f Hus Hs He Hf.
  - cbn [map app rev] in *. destruct fl.
    + cbn [W flat_map length] in He. replace pc with (start c) by (rewrite <- (Hfl eq_refl); lia). apply closure_start; auto. lia.
    + destruct f as [|f]; [lia|]. unfold W, makeJump in Hs. cbn [flat_map ins_words app] in Hs. unfold makeJump in Hs.
      apply seg_cons in Hs. destruct Hs as (Hs1 & Hs). apply seg_cons in Hs. destruct Hs as (Hs2 & _).
      cbn [closure]. rewrite Hs1. change (w_op 8) with OpJump. cbn iota. rewrite Hs2.
      destruct (sstart_start g h order L c Hc) as (E & Hlt). rewrite N.mod_small by auto. rewrite E. apply closure_start; auto. simpl in Hf. lia.
  - cbn [map app] in Hs, He.
    assert (Hs': seg (p_words P) pc (makeFork (sstart h u) ++ W (map IFork (map (sstart h) us) ++ (if fl then [] else [IJump (sstart h c)])))) by exact Hs.
    apply seg_app in Hs'. destruct Hs' as (Hs1 & Hs2).
    destruct f as [|f]; [lia|]. unfold makeFork in Hs1. apply seg_cons in Hs1. destruct Hs1 as (Hs1 & Hs3). apply seg_cons in Hs3. destruct Hs3 as (Hs3 & _).
    cbn [closure]. rewrite Hs1. change (w_op 7) with OpFork. cbn iota. rewrite Hs3.
    destruct (Hus u (or_introl eq_refl)) as (Hu & Hu0).
    destruct (sstart_start g h order L u Hu) as (E & Hlt). rewrite N.mod_small by auto. rewrite E.
    change (length (makeFork (sstart h u))) with 2%nat in Hs2.
    rewrite (IH (pc + 2)%nat f); auto.
    + rewrite closure_start by (auto; lia). cbn [rev]. rewrite map_app. reflexivity.
    + intros q Hq. apply Hus. right. auto.
    + rewrite He.
      assert (Hl: forall r, length (W (IFork (sstart h u) :: r)) = (2 + length (W r))%nat) by reflexivity.
      rewrite Hl. lia.
    + cbn [length] in Hf. lia.
Qed.

Lemma root_first : exists first, closure F P 0 = Some first /\
  forall l w off, bytes w -> first_some (fh l w off) (new_threads first off) = best g l NOLABEL w 0 off.
Proof.
  assert (H0: (0 < length g)%nat).
  { destruct (gd_root _ _ G) as (x & E & _). apply nth_error_Some. congruence. }
  destruct (code_of_ok g K h order P G L WR 0 H0) as (x & s & C).
  destruct (root_snip g K h order G L) as (x' & s' & Ex' & Es' & R1 & R2 & R3 & R4 & R5 & R6).
  rewrite (co_x _ _ _ _ _ _ C) in Ex'. injection Ex' as <-. rewrite (co_s _ _ _ _ _ _ C) in Es'. injection Es' as <-.
  pose proof (start_zero g h order L) as Hz.
  pose proof (co_ev _ _ _ _ _ _ C) as Hev. cbn [Nat.eqb] in Hev.
  pose proof (code_seq g h P 0 x s C) as Eseq. unfold pre_ins in Eseq. rewrite R2, R3, R6 in Eseq. cbn [N.eqb app] in Eseq.
  change (NOLABEL =? NONE32) with true in Eseq. rewrite N.eqb_refl in Eseq. cbn iota in Eseq. cbn [app] in Eseq.
  destruct (parts g h P 0 x s C) as (_ & Hs & _). rewrite Hev, Hz, Eseq in Hs. cbn [length Nat.add] in Hs.
  assert (Hbest: forall l w off, best g l NOLABEL w 0 off = after l NOLABEL w 0 off).
  { intros l w off. rewrite (best_eq l NOLABEL w 0 x off (co_x _ _ _ _ _ _ C)), R2. unfold lab_after. rewrite R3, N.eqb_refl. cbn [andb].
    destruct (after l NOLABEL w 0 off); auto. }
  assert (HL: forall l w, bytes w -> forall b w', w = b :: w' -> landing_ok l w' /\ forall b' w'', w' = b' :: w'' -> landing_ok l w'').
  { intros l w Hb b w' ->. inversion Hb; subst. apply landing_all; auto. }
  destruct (sn_jt s) eqn:Ej.
  - assert (Eex: ex 0 = 0%nat).
    { unfold CodegenWf.ex. rewrite Eseq, Hev, Hz. unfold out_ins. rewrite Ej. reflexivity. }
    exists [0%nat]. split.
    + destruct (jt_head_ok g h P 0 x s C Ej) as (tbl & f & la & w & tt & i & _ & _ & _ & Ejt & Ho & _).
      destruct (jt_at g K h order P G L WR 0 x s _ _ _ _ _ C H0 Ejt) as (Hw & _).
      rewrite Eex in Hw. unfold Fu. rewrite Nat.add_comm. cbn [Nat.add closure]. rewrite Hw, Ho. auto.
    + intros l w off Hb. cbn [new_threads map first_some]. rewrite Hbest.
      pose proof (jt_fh l w (mkT 0 off NONE NOLABEL false) off 0 x s Hb (HL l w Hb) C H0 Ej) as Hj.
      rewrite Eex in Hj. change (fh l w off (mkT 0 off NONE NOLABEL false) = after l NOLABEL w 0 off) in Hj. rewrite Hj.
      destruct (after l NOLABEL w 0 off); auto.
  - destruct (v_out x) as [|c r] eqn:Eo; [easy|].
    assert (Hed: forall u, In u (c :: r) -> (u < length g)%nat /\ u <> 0%nat).
    { intros u Hu. apply (edge_lt g K G 0 u). unfold edge. rewrite (edge_outs _ _ _ (co_x _ _ _ _ _ _ C)), Eo. auto. }
    unfold out_ins in Hs, Eseq. rewrite Ej, Eo in Hs, Eseq. rewrite <- map_rev in Hs, Eseq.
    destruct (Hed c (or_introl eq_refl)) as (Hc & Hc0).
    destruct (lens g K h order P G L WR 0 H0) as (Hlen & Hend).
    assert (En: sc_jt (code 0) = None) by (rewrite (co_code _ _ _ _ _ _ C); cbn [sc_jt]; rewrite Ej; auto).
    rewrite En, Hev in Hlen. cbn [jt_words length Nat.add] in Hlen.
    exists (map start (c :: r)). split.
    + rewrite <- (rev_involutive r) at 1. cbn [map].
      apply (closure_forks c (follows h 0 c) (ex 0) Hc Hc0) with (pc := 0%nat); auto.
      * intros Ef. rewrite (co_follows _ _ _ _ _ _ C Ej c r Eo Ef). unfold CodegenWf.ex. rewrite Hev, Hz. cbn [length]. lia.
      * intros u Hu. apply Hed. right. apply in_rev. auto.
      * unfold CodegenWf.ex. rewrite Hev, Hz, Eseq. cbn [length Nat.add]. reflexivity.
      * rewrite Eseq, W_app, app_length, W_forks in Hlen.
        assert (Hk: forall q, (length q <= length (flat_map makeFork q))%nat).
        { induction q as [|a q IHq]; simpl; lia. }
        specialize (Hk (map (sstart h) (rev r))). rewrite map_length in Hk. unfold Fu. lia.
    + intros l w off Hb. rewrite Hbest. unfold new_threads. rewrite map_map, first_some_map. unfold after. rewrite (edge_outs _ _ _ (co_x _ _ _ _ _ _ C)), Eo.
      assert (Hst: forall u, In u (c :: r) -> fh l w off (mkT (start u) off NONE NOLABEL false) =
        match w with [] => None | b :: w' => if enters g u b then best g l NOLABEL w' u (off + 1) else None end).
      { intros u Hu. destruct (Hed u Hu) as (Hu1 & Hu2).
        apply (start_fh l w (mkT 0 off NONE NOLABEL false) off u Hb); auto. intros b w' E. apply (HL l w Hb b w' E). }
      rewrite (first_some_ext _ _ _ Hst). destruct w; auto. apply first_some_none. auto.
Qed.

Lemma root_arrive : arrive P An NOLABEL false 0.
Proof.
  assert (H0: (0 < length g)%nat).
  { destruct (gd_root _ _ G) as (x & E & _). apply nth_error_Some. congruence. }
  destruct (code_of_ok g K h order P G L WR 0 H0) as (x & s & C).
  pose proof (start_zero g h order L) as Hz.
  pose proof (co_ev _ _ _ _ _ _ C) as Hev. cbn [Nat.eqb] in Hev.
  destruct (parts g h P 0 x s C) as (_ & Hs & _). destruct (aparts g K h order P G L WR 0 H0) as (_ & Ha & _).
  rewrite Hev, Hz in *. cbn [length Nat.add] in *.
  pose proof (head_arrive P An (K 0%nat) false 0 (ex 0) (sc_seq (code 0)) 0 (seq_ok g K h order P G L WR 0 x s C H0) Ha Hs) as Har.
  rewrite (gd_K0 _ _ G) in Har. apply Har. intros E. unfold CodegenWf.ex. rewrite E, Hev, Hz. reflexivity.
Qed.

(** What a compiled program matches. *)
Theorem compiled_ends : exists first, closure F P 0 = Some first /\
  forall l w off s, bytes w ->
   hd_error (ends_at F P first l w off s) = best g l NOLABEL (skipn (N.to_nat (s - off)) w) 0 s.
Proof.
  destruct root_first as (first & H1 & H2). exists first. split; auto.
  intros l w off s Hb. unfold ends_at. rewrite hd_flat. apply H2.
  unfold bytes in *. rewrite <- (firstn_skipn (N.to_nat (s - off)) w) in Hb. apply Forall_app in Hb. apply Hb.
Qed.
End Sem.
