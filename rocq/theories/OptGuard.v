(** labelGuardStates terminates, leaves labels as code generation needs them, and keeps what the
    automaton matches and prefers. *)
From Verif Require Import Base NfaModel VmModel CodegenSpec Thm_Codegen BuildModel BuildProofs OptModel OptSpec OptPrune OptMerge OptMergeLang OptMergeBest OptLive.
Open Scope nat_scope.

Definition sum_ins (g : nfa) (f : nat -> bool) : nat := list_sum (map (fun v => if f v then length (ins g v) else 0) (seq 0 (length g))).
Definition guard_fuel (g : nfa) : nat := 2 + length g + sum_ins g (fun _ => true).

Lemma list_sum_drop (f h : nat -> nat) k n u : (forall v, v <> u -> h v <= f v) -> k + h u <= f u -> forall b, b <= u < b + n ->
  k + list_sum (map h (seq b n)) <= list_sum (map f (seq b n)).
Proof.
  intros H Hu. induction n as [|n IH]; intros b Hb; [lia|]. cbn [seq map list_sum fold_right]. destruct (Nat.eq_dec b u) as [->|Hn].
  - assert (Q : forall m c, u < c -> list_sum (map h (seq c m)) <= list_sum (map f (seq c m))).
    { induction m as [|m IHm]; intros c Hc; simpl; auto. assert (h c <= f c) by (apply H; lia). assert (u < S c) as Hc' by lia. specialize (IHm (S c) Hc'). simpl in IHm. unfold list_sum in *. lia. }
    specialize (Q n (S u) ltac:(lia)). unfold list_sum in *. lia.
  - assert (Hb' : S b <= u < S b + n) by lia. specialize (IH (S b) Hb'). specialize (H b Hn). unfold list_sum in *. lia.
Qed.

Lemma list_sum_le (f h : nat -> nat) : (forall v, h v <= f v) -> forall l, list_sum (map h l) <= list_sum (map f l).
Proof. intros H. induction l as [|a l IH]; simpl; auto. specialize (H a). unfold list_sum in *. lia. Qed.

Lemma app_split {A} (l r : list A) : forall p w q, l ++ r = p ++ w :: q -> In w l \/ exists p', p = l ++ p' /\ r = p' ++ w :: q.
Proof.
  induction l as [|x l IH]; intros p w q E; [right; exists p; auto|]. destruct p as [|a p]; simpl in E; injection E as -> E; [left; left; auto|].
  destruct (IH p w q E) as [H|(p' & -> & ->)]; [left; right; auto|]. right. exists p'. auto.
Qed.

Lemma filter_length_le {A} (f : A -> bool) l : length (filter f l) <= length l.
Proof. induction l as [|a l IH]; simpl; auto. destruct (f a); simpl; lia. Qed.

Section Guard.
Variable g0 : nfa.
Variable LS : N -> Prop.
Hypothesis I0 : fsm_core g0 LS.
Hypothesis HB : forall l, LS l -> (l < UNLABELABLE)%N.
Let F0 := fc_ok _ _ I0.
Let n := length g0.

Definition labelled (L : nat -> N) (g : nfa) : Prop := length g = n /\
  forall v x, nth_error g0 v = Some x -> nth_error g v = Some (mkV (v_trans x) (v_match x) (L v) (v_out x) (v_in x)).

Lemma labelled0 : labelled (lbl g0) g0.
Proof. split; auto. intros v x E. rewrite E. unfold lbl. rewrite E. destruct x. auto. Qed.

Lemma lab_get L g v : labelled L g -> v < n -> exists x, get g v = Ok x /\ v_in x = ins g0 v /\ v_out x = outs g0 v /\ v_match x = mat g0 v /\ v_label x = L v.
Proof.
  intros (_ & H) HL. destruct (nth_lt g0 v HL) as (x & E). specialize (H v x E). unfold get. rewrite H. eexists. split; [reflexivity|]. unfold ins, outs, mat. rewrite E. auto.
Qed.

Lemma lab_set L g v l : labelled L g -> v < n -> exists g', set_label g v l = Ok g' /\ labelled (fupd L v l) g'.
Proof.
  intros (HL & H) Hv. destruct (nth_lt g0 v Hv) as (x & E). pose proof (H v x E) as E'. unfold set_label, get. rewrite E'. cbn [bind v_trans v_match v_out v_in].
  eexists. split; [reflexivity|]. split; [rewrite upd_length; auto|]. intros u y Ey. unfold fupd. destruct (Nat.eqb_spec u v) as [->|Hn].
  - rewrite nth_upd_same by (unfold n in *; lia). rewrite E in Ey. injection Ey as <-. auto.
  - rewrite nth_upd_other by auto. apply H. auto.
Qed.

Lemma lab_label L g v : labelled L g -> v < n -> label_of g v = Ok (L v).
Proof. intros H Hv. destruct (lab_get L g v H Hv) as (x & E & _ & _ & _ & X). unfold label_of. rewrite E. cbn [bind]. congruence. Qed.

Lemma lab_trans L g v : labelled L g -> v < n -> has_trans g v = Ok (negb (v =? 0)).
Proof.
  intros (_ & H) HL. destruct (nth_lt g0 v HL) as (x & E). specialize (H v x E). unfold has_trans, get. rewrite H. cbn [bind v_trans].
  destruct (Nat.eqb_spec v 0) as [->|Hn].
  - destruct (fk_root _ F0) as (y & Ey & T & _). rewrite E in Ey. injection Ey as <-. rewrite T. auto.
  - destruct (fk_state _ F0 v x Hn E) as (t & -> & _). auto.
Qed.

Lemma ins_lt v p : In p (ins g0 v) -> p < n /\ In v (outs g0 p).
Proof. intros H. assert (H' : In v (outs g0 p)) by (apply (sym_in g0 p v (fk_sym _ F0)); auto). split; auto. eapply outs_in; eauto. Qed.

Lemma unlabel_parents_spec L g : labelled L g -> forall hs unext, (forall h, In h hs -> h < n) ->
  unlabel_parents g hs unext = Ok (rev (filter (fun h => negb (h =? 0) && negb (L h =? UNLABELABLE)%N) hs) ++ unext).
Proof.
  intros H. induction hs as [|h hs IH]; intros unext Hh; cbn [unlabel_parents]; auto. assert (HL : h < n) by (apply Hh; left; auto).
  rewrite (lab_trans L g h H HL), (lab_label L g h H HL). cbn [bind filter]. rewrite IH by (intros; apply Hh; right; auto).
  destruct (negb (h =? 0) && negb (L h =? UNLABELABLE)%N); auto. cbn [rev]. rewrite <- app_assoc. auto.
Qed.

(** Two keywords can be matched from [v]. *)
Definition two (v : nat) : Prop := exists l l', l <> l' /\ arrives g0 l v /\ arrives g0 l' v.

Lemma arrives_label l v : arrives g0 l v -> (l < UNLABELABLE)%N.
Proof.
  intros A. induction A as [v HM HL|]; auto. apply HB. destruct (fc_labels _ _ I0 v) as [H|H]; [|congruence]. apply (match_label g0 v F0) in HM. congruence.
Qed.

Lemma arrives_in l v : arrives g0 l v -> LS l.
Proof. intros A. induction A as [v HM HL|]; auto. destruct (fc_labels _ _ I0 v) as [X|X]; [|congruence]. apply (match_label g0 v F0) in HM. congruence. Qed.

Lemma up v c l : In c (outs g0 v) -> arrives g0 l c -> arrives g0 l v.
Proof. apply ar_step. Qed.
Lemma two_up v c : In c (outs g0 v) -> two c -> two v.
Proof. intros H (l & l' & Hn & A & A'). exists l, l'. split; auto. split; eapply up; eauto. Qed.
Lemma two_mat v : two v -> mat g0 v = false.
Proof. intros (l & l' & Hn & A & A'). destruct (mat g0 v) eqn:E; auto. pose proof (fc_owned _ _ I0 v l E A). pose proof (fc_owned _ _ I0 v l' E A'). congruence. Qed.

Record sound (L : nat -> N) : Prop := {
  sn_arr : forall v, L v = NOLABEL \/ (L v = UNLABELABLE /\ two v) \/ arrives g0 (L v) v;
  sn_mat : forall v, mat g0 v = true -> L v = lbl g0 v;
  sn_root : L 0 = NOLABEL
}.

Definition uclosed (L : nat -> N) : Prop := forall v c, v <> 0 -> In c (outs g0 v) -> L c = UNLABELABLE -> L v = UNLABELABLE.

Lemma NU : NOLABEL <> UNLABELABLE.
Proof. discriminate. Qed.

Lemma sound_lt L v : sound L -> L v <> NOLABEL -> v < n.
Proof.
  intros S H. destruct (sn_arr _ S v) as [E|[(_ & l & l' & _ & A & _)|A]]; [congruence| |]; (destruct A as [v0 HM _|v0 c Hc _]; [apply mat_lt; auto|eapply outs_in; eauto]).
Qed.

(** [L'] is [L] with more states found to be common to several keywords. *)
Definition unlab (L L' : nat -> N) : Prop := forall v, L' v = L v \/ (L' v = UNLABELABLE /\ two v /\ v <> 0).

Lemma unlab_sound L L' : sound L -> unlab L L' -> sound L'.
Proof.
  intros [A M R] U. split.
  - intros v. destruct (U v) as [->|(-> & T & _)]; auto.
  - intros v Hm. destruct (U v) as [->|(_ & T & _)]; auto. rewrite (two_mat v T) in Hm. discriminate.
  - destruct (U 0) as [->|(_ & _ & H)]; auto. congruence.
Qed.

Definition isU (l : N) : bool := (l =? UNLABELABLE)%N.
Definition pot (L : nat -> N) : nat := sum_ins g0 (fun v => negb (isU (L v))).

Lemma unlabel_spec : forall fuel L g unext, labelled L g -> sound L ->
  (forall u, In u unext -> u <> 0 /\ u < n /\ two u) ->
  (forall v c, v <> 0 -> In c (outs g0 v) -> L c = UNLABELABLE -> L v = UNLABELABLE \/ In v unext) ->
  (forall A u B, unext = A ++ u :: B -> L u = UNLABELABLE -> forall p, p <> 0 -> In p (ins g0 u) -> L p = UNLABELABLE \/ In p A) ->
  length unext + pot L <= fuel ->
  exists L' g', unlabel fuel g unext = Ok g' /\ labelled L' g' /\ unlab L L' /\ uclosed L' /\ (forall u, In u unext -> L' u = UNLABELABLE).
Proof.
  induction fuel as [|k IH]; intros L g unext HG S HU HC HP HF.
  - destruct unext as [|u rest]; [|simpl in HF; lia]. exists L, g. split; auto. split; auto. split; [left; auto|]. split; [|intros ? []].
    intros v c H0 Hc E. destruct (HC v c H0 Hc E) as [|[]]; auto.
  - destruct unext as [|u rest]; cbn [unlabel].
    + exists L, g. split; auto. split; auto. split; [left; auto|]. split; [|intros ? []]. intros v c H0 Hc E. destruct (HC v c H0 Hc E) as [|[]]; auto.
    + destruct (HU u (or_introl eq_refl)) as (U0 & UL & UT). destruct (lab_set L g u UNLABELABLE HG UL) as (g1 & E1 & HG1). rewrite E1. cbn [bind].
      destruct (lab_get _ g1 u HG1 UL) as (x & Ex & Ix & _). rewrite Ex. cbn [bind]. rewrite Ix.
      rewrite (unlabel_parents_spec _ g1 HG1) by (intros h Hh; apply (ins_lt u h); auto). cbn [bind].
      set (L1 := fupd L u UNLABELABLE). fold L1 in HG1. set (new := rev (filter (fun h => negb (h =? 0) && negb (L1 h =? UNLABELABLE)%N) (ins g0 u))).
      assert (NEW : forall p, In p new <-> In p (ins g0 u) /\ p <> 0 /\ L1 p <> UNLABELABLE).
      { intros p. unfold new. rewrite <- in_rev, filter_In, andb_true_iff, !negb_true_iff. rewrite Nat.eqb_neq, N.eqb_neq. tauto. }
      assert (L1u : L1 u = UNLABELABLE) by (unfold L1, fupd; rewrite Nat.eqb_refl; auto).
      assert (L1o : forall v, v <> u -> L1 v = L v) by (intros v Hv; unfold L1, fupd; apply Nat.eqb_neq in Hv; rewrite Hv; auto).
      assert (L1m : forall v, L v = UNLABELABLE -> L1 v = UNLABELABLE) by (intros v Hv; destruct (Nat.eq_dec v u) as [->|]; auto; rewrite L1o; auto).
      assert (UB1 : unlab L L1). { intros v. destruct (Nat.eq_dec v u) as [->|Hn]; [right|left]; auto. }
      destruct (IH L1 g1 (new ++ rest)) as (L' & g' & E' & HG' & UB' & UC' & US'); auto.
      * eapply unlab_sound; eauto.
      * intros p Hp. apply in_app_or in Hp as [Hp|Hp]; [|apply HU; right; auto]. apply NEW in Hp as (Hp & P0 & _). destruct (ins_lt u p Hp) as (PL & Hc). split; auto. split; auto. eapply two_up; eauto.
      * intros v c H0 Hc E. destruct (Nat.eq_dec c u) as [->|Hn].
        -- assert (Hv : In v (ins g0 u)) by (apply (sym_in g0 v u (fk_sym _ F0)); auto). destruct (N.eq_dec (L1 v) UNLABELABLE) as [|HNu]; auto. right. apply in_or_app. left. apply NEW. auto.
        -- rewrite L1o in E by auto. destruct (HC v c H0 Hc E) as [H|[->|H]]; auto. right. apply in_or_app. auto.
      * intros A w B Q Ew p P0 Hp.
        assert (OLD : forall A' B', rest = A' ++ w :: B' -> L1 p = UNLABELABLE \/ In p (new ++ A')).
        { intros A' B' Q'. destruct (Nat.eq_dec w u) as [->|Hn].
          - destruct (N.eq_dec (L1 p) UNLABELABLE) as [|HNu]; auto. right. apply in_or_app. left. apply NEW. auto.
          - rewrite L1o in Ew by auto. destruct (HP (u :: A') w B') with (p := p) as [H|[->|H]]; auto; [rewrite Q'; auto|]. right. apply in_or_app. auto. }
        destruct (app_split new rest A w B Q) as [Iw|(A' & -> & Q')]; [|eapply OLD; eauto].
        apply NEW in Iw. destruct Iw as (_ & _ & Iw). congruence.
      * rewrite app_length. simpl in HF. destruct (N.eq_dec (L u) UNLABELABLE) as [EU|EU].
        -- assert (new = []). { destruct new as [|p l] eqn:En; auto. assert (Hp : In p (p :: l)) by (left; auto). apply NEW in Hp as (Hp & P0 & PU).
             destruct (HP [] u rest eq_refl EU p P0 Hp) as [H|[]]. destruct PU. auto. }
           rewrite H. simpl. assert (pot L1 <= pot L); [|lia]. apply list_sum_le. intros v. unfold isU. destruct (N.eqb_spec (L v) UNLABELABLE) as [E|E]; [rewrite (L1m v E), N.eqb_refl; auto|]. simpl. destruct (N.eqb_spec (L1 v) UNLABELABLE); simpl; lia.
        -- assert (NL : length new <= length (ins g0 u)) by (unfold new; rewrite rev_length; apply filter_length_le).
           assert (DR : length (ins g0 u) + pot L1 <= pot L).
           { apply list_sum_drop with (u := u); [| |unfold n in *; lia].
             - intros v Hv. rewrite L1o by auto. auto.
             - rewrite L1u. unfold isU. rewrite N.eqb_refl. destruct (N.eqb_spec (L u) UNLABELABLE); [congruence|]. simpl. lia. }
           lia.
      * exists L', g'. split; auto. split; auto. split; [|split; auto].
        -- intros v. destruct (UB' v) as [->|H]; auto.
        -- intros v [<-|Hv]; [|apply US'; apply in_or_app; auto]. destruct (UB' u) as [->|(H & _)]; auto.
Qed.

(** What is still to be done: [next] and the match states not yet visited *)
Definition closed (L : nat -> N) (X : nat -> nat -> Prop) : Prop := forall v c, v <> 0 -> In c (outs g0 v) -> L c <> NOLABEL -> L v = L c \/ L v = UNLABELABLE \/ X v c.

Definition cntN (L : nat -> N) : nat := length (filter (fun v => (L v =? NOLABEL)%N) (seq 0 n)).

Lemma filter_le {A} (f h : A -> bool) l : (forall a, f a = true -> h a = true) -> length (filter f l) <= length (filter h l).
Proof. intros H. induction l as [|a l IH]; simpl; auto. specialize (H a). destruct (f a), (h a); simpl; try lia. Qed.

Lemma cntN_unlab L L' : unlab L L' -> cntN L' <= cntN L.
Proof.
  intros U. apply filter_le. intros v E. apply N.eqb_eq in E. apply N.eqb_eq. destruct (U v) as [<-|(H & _)]; auto. rewrite H in E. discriminate.
Qed.

Lemma filter_drop (f h : nat -> bool) u : h u = true -> f u = false -> (forall v, f v = true -> h v = true) -> forall k b, b <= u < b + k -> length (filter f (seq b k)) < length (filter h (seq b k)).
Proof.
  intros Hu Fu H. induction k as [|k IH]; intros b Hb; [lia|]. cbn [seq filter]. destruct (Nat.eq_dec b u) as [->|Hn].
  - rewrite Hu, Fu. simpl. pose proof (filter_le f h (seq (S u) k) H). lia.
  - assert (Hb' : S b <= u < S b + k) by lia. specialize (IH (S b) Hb'). specialize (H b). destruct (f b), (h b); simpl; try lia.
Qed.

Record back (L : nat -> N) (label : N) (t : nat) (next : list nat) : Prop := {
  bk_sound : sound L;
  bk_u : uclosed L;
  bk_t : arrives g0 label t /\ (L t = label \/ L t = UNLABELABLE);
  bk_next : forall v, In v next -> v < n /\ arrives g0 label v /\ (L v = label \/ L v = UNLABELABLE)
}.

Lemma label_parents_spec (ms : nat -> Prop) label t : (label < UNLABELABLE)%N -> forall fuel hs L g next, labelled L g -> back L label t next ->
  (forall h, In h hs -> In h (ins g0 t)) ->
  closed L (fun v c => In c next \/ (c = t /\ In v hs) \/ ms c) -> 1 + sum_ins g0 (fun _ => true) <= fuel ->
  exists L' g' next', label_parents fuel g label hs next = Ok (g', next') /\ labelled L' g' /\ back L' label t next' /\
    closed L' (fun v c => In c next' \/ ms c) /\ length next' + cntN L' <= length next + cntN L.
Proof.
  intros LU fuel. induction hs as [|h hs IH]; intros L g next HG BK HH HC HF; cbn [label_parents].
  - exists L, g, next. split; auto. split; auto. split; auto. split; auto. intros v c H0 Hc E. destruct (HC v c H0 Hc E) as [|[|[|[(_ & [])|]]]]; auto.
  - destruct (ins_lt t h (HH h (or_introl eq_refl))) as (HL & Ht). rewrite (lab_trans L g h HG HL), (lab_label L g h HG HL). cbn [bind].
    assert (HH' : forall h, In h hs -> In h (ins g0 t)) by (intros; apply HH; right; auto).
    pose proof BK as BK0. destruct BK as [S UC (TA & TL) NX].
    assert (DROP : h = 0 \/ L h = L t \/ L h = UNLABELABLE -> closed L (fun v c => In c next \/ (c = t /\ In v hs) \/ ms c)).
    { intros D v c H0 Hc E. destruct (HC v c H0 Hc E) as [|[|[|[(-> & [<-|])|]]]]; auto; [|right; right; right; left; auto]. destruct D as [->|[|]]; auto. congruence. }
    destruct (Nat.eqb_spec h 0) as [->|H0]; cbn [negb].
    { apply IH; auto. }
    destruct (N.eqb_spec (L h) NOLABEL) as [EN|EN].
    + destruct (lab_set L g h label HG HL) as (g1 & E1 & HG1). rewrite E1. cbn [bind]. set (L1 := fupd L h label) in *.
      assert (L1h : L1 h = label) by (unfold L1, fupd; rewrite Nat.eqb_refl; auto).
      assert (L1o : forall v, v <> h -> L1 v = L v) by (intros v Hv; unfold L1, fupd; apply Nat.eqb_neq in Hv; rewrite Hv; auto).
      assert (TN : t <> h). { intros ->. destruct TL as [E|E]; rewrite EN in E; [|discriminate]. subst label. unfold UNLABELABLE, NOLABEL in LU. lia. }
      assert (TLb : L t = label). { destruct TL as [|E]; auto. apply (UC h t H0 Ht) in E. rewrite E in EN. discriminate. }
      destruct (IH L1 g1 (h :: next)) as (L' & g' & next' & E' & HG' & BK' & C' & M'); auto.
      * split.
        -- split.
           ++ intros v. destruct (Nat.eq_dec v h) as [->|Hn]; [|rewrite L1o by auto; apply S]. right. right. rewrite L1h. eapply up; eauto.
           ++ intros v Hm. destruct (Nat.eq_dec v h) as [->|Hn]; [|rewrite L1o by auto; apply S; auto]. exfalso. pose proof (sn_mat _ S h Hm) as Z. apply (match_label g0 h F0) in Hm. congruence.
           ++ rewrite L1o by auto. apply S.
        -- intros v c Hv Hc E. destruct (Nat.eq_dec c h) as [->|Hn]; [rewrite L1h in E; rewrite E in LU; lia|]. rewrite L1o in E by auto. pose proof (UC v c Hv Hc E) as Z.
           destruct (Nat.eq_dec v h) as [->|Hn2]; [rewrite EN in Z; discriminate|]. rewrite L1o; auto.
        -- split; auto. left. rewrite L1o; auto.
        -- intros v [<-|Hv]; [split; auto; split; [eapply up; eauto|left; auto]|]. destruct (NX v Hv) as (V1 & V2 & V3). split; auto. split; auto.
           destruct (Nat.eq_dec v h) as [->|Hn]; auto. rewrite L1o; auto.
      * intros v c Hv Hc E. destruct (Nat.eq_dec c h) as [->|Hn]; [right; right; left; left; auto|]. rewrite L1o in E by auto.
        destruct (Nat.eq_dec v h) as [->|Hn2].
        -- destruct (Nat.eq_dec c t) as [->|Hnt]; [left; rewrite L1h, L1o by auto; congruence|]. destruct (HC h c H0 Hc E) as [Z|[Z|[Z|[(Z & _)|Z]]]]; try congruence; [|right; right; left; right; auto|auto].
           rewrite EN in Z. discriminate.
        -- rewrite !L1o by auto. destruct (HC v c Hv Hc E) as [|[|[Z|[(-> & [Z|Z])|Z]]]]; auto; [right; right; left; right; auto|congruence|right; right; right; left; auto].
      * exists L', g', next'. split; auto. split; auto. split; auto. split; auto. simpl in M'.
        assert (cntN L1 < cntN L); [|lia]. apply filter_drop with (u := h); [apply N.eqb_eq; auto| | |unfold n in *; lia].
        -- rewrite L1h. apply N.eqb_neq. intros ->. unfold UNLABELABLE, NOLABEL in LU. lia.
        -- intros v Z. apply N.eqb_eq in Z. apply N.eqb_eq. destruct (Nat.eq_dec v h) as [->|Hn]; auto. rewrite L1o in Z; auto.
    + destruct (N.eqb_spec (L h) UNLABELABLE) as [EU|EU]; [apply IH; auto|].
      destruct (N.eqb_spec (L h) label) as [EL|EL].
      { apply IH; auto. apply DROP. destruct TL as [E|E]; [right; left; congruence|]. apply (UC h t H0 Ht) in E. auto. }
      assert (T2 : two h). { exists (L h), label. split; auto. destruct (sn_arr _ S h) as [|[(?&_)|A]]; try congruence. split; auto. eapply up; eauto. }
      destruct (unlabel_spec fuel L g [h]) as (L1 & g1 & E1 & HG1 & UB1 & UC1 & US1); auto.
      * intros u [<-|[]]. auto.
      * intros v c Hv Hc E. left. eapply UC; eauto.
      * intros A u B Q Eu. destruct A as [|a A]; [injection Q as <- _; congruence|]. destruct A; discriminate.
      * simpl. eapply Nat.le_trans; [|exact HF]. apply le_n_S. apply list_sum_le. intros v. destruct (negb (isU (L v))); lia.
      * rewrite E1. cbn [bind].
        assert (KL : forall v, (L v = label \/ L v = UNLABELABLE) -> L1 v = label \/ L1 v = UNLABELABLE) by (intros v Hv; destruct (UB1 v) as [->|(-> & _)]; auto).
        destruct (IH L1 g1 next) as (L' & g' & next' & E' & HG' & BK' & C' & M'); auto.
        -- split; auto. eapply unlab_sound; eauto. intros v Hv. destruct (NX v Hv) as (V1 & V2 & V3). auto.
        -- intros v c Hv Hc E. destruct (UB1 c) as [Ec|(Ec & _)]; [|right; left; eapply UC1; eauto]. rewrite Ec in E. 
           destruct (Nat.eq_dec v h) as [->|Hn]; [right; left; apply US1; left; auto|].
           destruct (HC v c Hv Hc E) as [Z|[Z|[Z|[(Z1 & [Z|Z])|Z]]]]; auto; try congruence.
           ++ destruct (UB1 v) as [->|(-> & _)]; auto. left. congruence.
           ++ right. left. destruct (UB1 v) as [->|(-> & _)]; auto.
           ++ right. right. right. left. auto.
        -- exists L', g', next'. split; auto. split; auto. split; auto. split; auto. pose proof (cntN_unlab _ _ UB1). lia.
Qed.

Lemma label_back_spec (ms : nat -> Prop) label : (label < UNLABELABLE)%N -> forall fuel F L g next, labelled L g -> sound L -> uclosed L ->
  (forall v, In v next -> v < n /\ arrives g0 label v /\ (L v = label \/ L v = UNLABELABLE)) ->
  closed L (fun v c => In c next \/ ms c) -> length next + cntN L <= fuel -> 1 + sum_ins g0 (fun _ => true) + fuel <= F ->
  exists L' g', label_back F g label next = Ok g' /\ labelled L' g' /\ sound L' /\ uclosed L' /\ closed L' (fun v c => ms c).
Proof.
  intros LU. induction fuel as [|k IH]; intros F L g next HG S UC NX HC HM HF.
  - destruct next as [|t rest]; [|simpl in HM; lia]. exists L, g. destruct F; cbn [label_back]; split; auto; split; auto; split; auto; split; auto;
      intros v c H0 Hc E; destruct (HC v c H0 Hc E) as [|[|[[]|]]]; auto.
  - destruct next as [|t rest].
    { exists L, g. destruct F; cbn [label_back]; split; auto; split; auto; split; auto; split; auto;
      intros v c H0 Hc E; destruct (HC v c H0 Hc E) as [|[|[[]|]]]; auto. }
    destruct F as [|F]; [lia|]. cbn [label_back]. destruct (NX t (or_introl eq_refl)) as (TL & TA & TT). destruct (lab_get L g t HG TL) as (x & Ex & Ix & _). rewrite Ex. cbn [bind]. rewrite Ix.
    destruct (label_parents_spec ms label t LU (1 + F) (ins g0 t) L g rest) as (L1 & g1 & next1 & E1 & HG1 & BK1 & C1 & M1); auto; [| |lia|].
    + split; auto. intros v Hv. apply NX. right. auto.
    + intros v c H0 Hc E. destruct (HC v c H0 Hc E) as [|[|[[<-|]|]]]; auto. right. right. right. left. split; auto. apply (sym_in g0 v t (fk_sym _ F0)). auto.
    + cbn [Nat.add] in E1. rewrite E1. cbn [bind]. destruct BK1 as [S1 UC1 T1 NX1]. apply (IH F L1 g1 next1); auto; [simpl in HM; lia|lia].
Qed.

Lemma propagate_spec : forall ms L g F, labelled L g -> sound L -> uclosed L -> (forall m, In m ms -> m < n) ->
  closed L (fun v c => In c ms /\ mat g0 c = true) -> 2 + n + sum_ins g0 (fun _ => true) <= F ->
  exists L' g', propagate F g ms = Ok g' /\ labelled L' g' /\ sound L' /\ uclosed L' /\ closed L' (fun _ _ => False).
Proof.
  induction ms as [|m ms IH]; intros L g F HG S UC HM HC HF; cbn [propagate].
  - exists L, g. split; auto. split; auto. split; auto. split; auto. intros v c H0 Hc E. destruct (HC v c H0 Hc E) as [|[|([] & _)]]; auto.
  - assert (ML : m < n) by (apply HM; left; auto). destruct (lab_get L g m HG ML) as (x & Ex & _ & _ & Mx & Lx). rewrite Ex. cbn [bind]. rewrite Mx.
    destruct (mat g0 m) eqn:Em.
    + pose proof (sn_mat _ S m Em) as LM. assert (AR : arrives g0 (L m) m) by (apply ar_here; auto).
      rewrite Lx. destruct (label_back_spec (fun c => In c ms /\ mat g0 c = true) (L m) (arrives_label _ _ AR) (1 + n) F L g [m]) as (L1 & g1 & E1 & HG1 & S1 & UC1 & C1); auto; [| | |lia|].
      * intros v [<-|[]]. auto.
      * intros v c H0 Hc E. destruct (HC v c H0 Hc E) as [|[|([<-|] & Hm)]]; auto. right. right. left. left. auto.
      * simpl. apply le_n_S. unfold cntN. pose proof (filter_length_le (fun v => (L v =? NOLABEL)%N) (seq 0 n)) as Q. rewrite seq_length in Q. auto.
      * rewrite E1. cbn [bind]. apply (IH L1 g1 F); auto. intros; apply HM; right; auto.
    + apply (IH L g F); auto; [intros; apply HM; right; auto|]. intros v c H0 Hc E. destruct (HC v c H0 Hc E) as [|[|([<-|] & Hm)]]; auto. congruence.
Qed.

(** After propagation *)
Record spread (L : nat -> N) : Prop := {
  sp_sound : sound L;
  sp_u : uclosed L;
  sp_closed : closed L (fun _ _ => False);
  sp_live : forall v, v <> 0 -> v < n -> L v <> NOLABEL
}.

Lemma spread_arrives L v l : sound L -> closed L (fun _ _ => False) -> v <> 0 -> arrives g0 l v -> L v = l \/ L v = UNLABELABLE.
Proof.
  intros S C H0 A. induction A as [v HM HL|v c Hc A IH].
  - left. rewrite (sn_mat _ S v HM). auto.
  - destruct (edge_bounds g0 v c F0 Hc) as (C0 & _). destruct (IH C0) as [E|E].
    + destruct (C v c H0 Hc) as [Z|[Z|[]]]; auto; [|left; congruence]. rewrite E. apply arrives_label in A. intros ->. unfold UNLABELABLE, NOLABEL in A. lia.
    + destruct (C v c H0 Hc) as [Z|[Z|[]]]; auto; [|right; congruence]. rewrite E. discriminate.
Qed.

Lemma propagate_all F : 2 + n + sum_ins g0 (fun _ => true) <= F -> exists L g', propagateMatchLabels F g0 = Ok g' /\ labelled L g' /\ spread L.
Proof.
  intros HF. destruct (propagate_spec (seq 0 n) (lbl g0) g0 F labelled0) as (L & g' & E & HG & S & UC & C); auto.
  - split; auto.
    + intros v. destruct (mat g0 v) eqn:Em; [right; right; apply ar_here; auto|]. left. destruct (N.eq_dec (lbl g0 v) NOLABEL) as [|H]; auto. apply (match_label g0 v F0) in H. congruence.
    + destruct (fk_root _ F0) as (x & Ex & _ & _ & Lx & _). unfold lbl. rewrite Ex. auto.
  - intros v c _ Hc E. destruct (fc_labels _ _ I0 c) as [H|H]; [rewrite E in H; discriminate|]. apply HB in H. rewrite E in H. lia.
  - intros m Hm. apply in_seq in Hm. lia.
  - intros v c _ Hc E. right. right. split; [|apply match_label; auto]. apply in_seq. destruct (edge_bounds g0 v c F0 Hc) as (_ & CL & _). unfold n. lia.
  - exists L, g'. split; auto. split; auto. split; auto. intros v H0 HL E'. destruct (fc_live _ _ I0 v H0 HL) as (l & A). destruct (spread_arrives L v l S C H0 A) as [Z|Z]; [|rewrite Z in E'; discriminate].
    apply arrives_label in A. rewrite <- Z, E' in A. unfold UNLABELABLE, NOLABEL in A. lia.
Qed.

Section Minimal.
Variable L1 : nat -> N.
Hypothesis SP : spread L1.

(** the states common to several keywords, which the first walk passes through *)
Definition passed (v : nat) : Prop := v = 0 \/ L1 v = UNLABELABLE.

Lemma passed_up v c : In c (outs g0 v) -> passed c -> passed v.
Proof.
  intros Hc [->|E]; [destruct (edge_bounds g0 v 0 F0 Hc); congruence|]. destruct (Nat.eq_dec v 0); [left; auto|]. right. eapply (sp_u _ SP); eauto.
Qed.

Definition unseen (visited : list nat) : nat := length (filter (fun v => negb (memb v visited)) (seq 0 n)).

Lemma unseen_cons t visited : t < n -> ~ In t visited -> unseen (t :: visited) < unseen visited.
Proof.
  intros HL Hn. apply filter_drop with (u := t); [| | |lia].
  - apply memb_nin in Hn. rewrite Hn. auto.
  - apply negb_false_iff. apply memb_in. left; auto.
  - intros v. rewrite !negb_true_iff, !memb_nin. intros H X. apply H. right; auto.
Qed.

Record walk (L : nat -> N) (cur next visited heads : list nat) : Prop := {
  wk_label : forall v, L v = if memb v visited && isU (L1 v) then NOLABEL else L1 v;
  wk_next : forall v, In v next -> In v visited /\ passed v;
  wk_heads : forall v, In v heads <-> In v visited /\ ~ passed v;
  wk_seen : forall v, In v visited -> v < n;
  wk_zero : In 0 visited;
  wk_close : forall v c, In v visited -> passed v -> ~ In v next -> In c (outs g0 v) -> In c visited \/ In c cur
}.

Lemma heads_out_spec : forall ts L g next visited heads, labelled L g -> walk L ts next visited heads -> (forall t, In t ts -> t < n) ->
  exists L' g' next' visited' heads', heads_out g ts next visited heads = Ok (g', next', visited', heads') /\ labelled L' g' /\ walk L' [] next' visited' heads' /\
    length next' + unseen visited' <= length next + unseen visited.
Proof.
  induction ts as [|t ts IH]; intros L g next visited heads HG [W1 W2 W3 W4 W5 W6] HT; cbn [heads_out].
  - exists L, g, next, visited, heads. split; auto. split; auto. split; auto. split; auto.
  - assert (TL : t < n) by (apply HT; left; auto). assert (HT' : forall t, In t ts -> t < n) by (intros; apply HT; right; auto).
    destruct (memb t visited) eqn:MT.
    { apply (IH L g); auto. split; auto. intros v c Hv Pv Nv Hc. destruct (W6 v c Hv Pv Nv Hc) as [|[<-|]]; auto. left. apply memb_in; auto. }
    rewrite (lab_label L g t HG TL). cbn [bind]. apply memb_nin in MT.
    assert (LT : L t = L1 t). { rewrite W1. apply memb_nin in MT. rewrite MT. auto. }
    assert (T0 : t <> 0) by (intros ->; auto). pose proof (unseen_cons t visited TL MT) as UN.
    rewrite LT. destruct (N.eqb_spec (L1 t) UNLABELABLE) as [EU|EU].
    + destruct (lab_set L g t NOLABEL HG TL) as (g1 & E1 & HG1). rewrite E1. cbn [bind].
      destruct (IH (fupd L t NOLABEL) g1 (t :: next) (t :: visited) heads) as (L' & g' & n' & v' & h' & E' & R1 & R2 & R3); auto.
      * split; auto.
        -- intros v. unfold fupd. cbn [memb existsb]. rewrite (Nat.eqb_sym v t). destruct (Nat.eqb_spec t v) as [<-|Hn]; [simpl; unfold isU; rewrite EU; auto|]. simpl. apply W1.
        -- intros v [<-|Hv]; [split; [left; auto|right; auto]|]. destruct (W2 v Hv). split; auto. right; auto.
        -- intros v. rewrite W3. split; [intros (H1 & H2); split; auto; right; auto|]. intros ([<-|H1] & H2); auto. destruct H2. right. auto.
        -- intros v [<-|Hv]; auto.
        -- right; auto.
        -- intros v c [<-|Hv] Pv Nv Hc; [destruct Nv; left; auto|]. destruct (W6 v c Hv Pv) as [|[<-|]]; auto; [intros X; apply Nv; right; auto|left; right; auto|left; left; auto].
      * exists L', g', n', v', h'. split; auto. split; auto. split; auto. simpl in R3. lia.
    + assert (NP : ~ passed t) by (intros [|]; auto).
      destruct (IH L g next (t :: visited) (t :: heads)) as (L' & g' & n' & v' & h' & E' & R1 & R2 & R3); auto.
      * split; auto.
        -- intros v. cbn [memb existsb]. destruct (Nat.eqb_spec v t) as [->|Hn]; [|simpl; apply W1]. simpl. unfold isU. destruct (N.eqb_spec (L1 t) UNLABELABLE); [congruence|auto].
        -- intros v Hv. destruct (W2 v Hv). split; auto. right; auto.
        -- intros v. split.
           ++ intros [<-|H]; [split; [left; auto|auto]|]. apply W3 in H as (H1 & H2). split; auto. right; auto.
           ++ intros ([<-|H1] & H2); [left; auto|]. right. apply W3. auto.
        -- intros v [<-|Hv]; auto.
        -- right; auto.
        -- intros v c [<-|Hv] Pv Nv Hc; [tauto|]. destruct (W6 v c Hv Pv Nv Hc) as [|[<-|]]; auto; [left; right; auto|left; left; auto].
      * exists L', g', n', v', h'. split; auto. split; auto. split; auto. simpl in R3. lia.
Qed.

Lemma heads_loop_spec : forall fuel L g next visited heads, labelled L g -> walk L [] next visited heads -> length next + unseen visited <= fuel ->
  exists L' g' visited' heads', heads_loop fuel g next visited heads = Ok (g', visited', heads') /\ labelled L' g' /\ walk L' [] [] visited' heads'.
Proof.
  induction fuel as [|k IH]; intros L g next visited heads HG W HF.
  - destruct next as [|h rest]; [|simpl in HF; lia]. exists L, g, visited, heads. auto.
  - destruct next as [|h rest]; cbn [heads_loop]; [exists L, g, visited, heads; auto|].
    destruct W as [W1 W2 W3 W4 W5 W6]. destruct (W2 h (or_introl eq_refl)) as (HV & HP). assert (HL : h < n) by auto.
    destruct (lab_get L g h HG HL) as (x & Ex & _ & Ox & _). rewrite Ex. cbn [bind]. rewrite Ox.
    destruct (heads_out_spec (outs g0 h) L g rest visited heads HG) as (L' & g' & n' & v' & h' & E' & HG' & W' & M'); auto.
    + split; auto.
      * intros v Hv. apply W2. right; auto.
      * intros v c Hv Pv Nv Hc. destruct (Nat.eq_dec v h) as [->|Hn]; auto. destruct (W6 v c Hv Pv) as [|[]]; auto. intros [->|]; auto.
    + intros t Ht. apply (edge_bounds g0 h t F0 Ht).
    + rewrite E'. cbn [bind]. apply (IH L' g'); auto. simpl in HF. lia.
Qed.

(** [L'] is [L] without the labels of some states that are not in [keep]. *)
Definition erased (keep : list nat) (L L' : nat -> N) : Prop := forall v, L' v = L v \/ (L' v = NOLABEL /\ ~ In v keep).

Lemma unlabel_out_spec : forall ts L g next visited, labelled L g -> (forall t, In t ts -> t < n) -> (forall v, In v next -> v < n) ->
  exists L' g' next' visited', unlabel_out g ts next visited = Ok (g', next', visited') /\ labelled L' g' /\ erased visited L L' /\ (forall v, In v visited -> In v visited') /\
    (forall v, In v next' -> v < n) /\ length next' + unseen visited' <= length next + unseen visited.
Proof.
  induction ts as [|t ts IH]; intros L g next visited HG HT HN; cbn [unlabel_out].
  - exists L, g, next, visited. split; auto. split; auto. split; [left; auto|]. auto.
  - assert (TL : t < n) by (apply HT; left; auto). assert (HT' : forall t, In t ts -> t < n) by (intros; apply HT; right; auto).
    destruct (memb t visited) eqn:MT; [apply (IH L g); auto|]. destruct (lab_set L g t NOLABEL HG TL) as (g1 & E1 & HG1). rewrite E1. cbn [bind]. apply memb_nin in MT.
    pose proof (unseen_cons t visited TL MT) as UN.
    destruct (IH (fupd L t NOLABEL) g1 (t :: next) (t :: visited)) as (L' & g' & n' & v' & E' & R1 & R2 & R3 & R4 & R5); auto; [intros v [<-|]; auto|].
    exists L', g', n', v'. split; auto. split; auto. split; [|split; [intros; apply R3; right; auto|split; auto; simpl in R5; lia]].
    intros v. destruct (R2 v) as [Z|(Z & Hn)]; [|right; split; auto; intros X; apply Hn; right; auto]. rewrite Z. unfold fupd. destruct (Nat.eqb_spec v t) as [->|]; auto.
Qed.

Lemma unlabel_rest_spec : forall fuel L g next visited, labelled L g -> (forall v, In v next -> v < n) -> length next + unseen visited <= fuel ->
  exists L' g', unlabel_rest fuel g next visited = Ok g' /\ labelled L' g' /\ erased visited L L'.
Proof.
  induction fuel as [|k IH]; intros L g next visited HG HN HF.
  - destruct next as [|h rest]; [|simpl in HF; lia]. exists L, g. split; auto. split; auto. left; auto.
  - destruct next as [|h rest]; cbn [unlabel_rest]; [exists L, g; split; auto; split; auto; left; auto|].
    destruct (lab_get L g h HG (HN h (or_introl eq_refl))) as (x & Ex & _ & Ox & _). rewrite Ex. cbn [bind]. rewrite Ox.
    destruct (unlabel_out_spec (outs g0 h) L g rest visited HG) as (L' & g' & n' & v' & E' & HG' & ER & VI & HN' & M').
    + intros t Ht. apply (edge_bounds g0 h t F0 Ht).
    + intros; apply HN; right; auto.
    + rewrite E'. cbn [bind]. destruct (IH L' g' n' v' HG' HN') as (L2 & g2 & E2 & HG2 & ER2); [simpl in HF; lia|].
      exists L2, g2. split; auto. split; auto. intros v. destruct (ER2 v) as [->|(-> & X)]; [apply ER|]. right. split; auto.
Qed.

(** The labels that are left *)
Record minimal (L : nat -> N) : Prop := {
  mn_passed : forall v, passed v -> L v = NOLABEL;
  mn_head : forall v c, passed v -> In c (outs g0 v) -> ~ passed c -> L c = L1 c;
  mn_other : forall v, L v = NOLABEL \/ L v = L1 v
}.

Lemma unseen_le visited : unseen visited <= n.
Proof. unfold unseen. pose proof (filter_length_le (fun v => negb (memb v visited)) (seq 0 n)) as Q. rewrite seq_length in Q. auto. Qed.

Lemma unseen_heads (visited heads : list nat) : (forall v, In v heads -> In v visited) -> length (descending n heads) + unseen visited <= n.
Proof.
  intros H. unfold descending, unseen. assert (E : length (filter (fun v => memb v heads) (rev (seq 0 n))) = length (filter (fun v => memb v heads) (seq 0 n))).
  { generalize (seq 0 n). induction l as [|a l IH]; auto. cbn [rev]. rewrite filter_app, app_length. cbn [filter]. destruct (memb a heads); simpl; lia. }
  rewrite E. clear E. rewrite <- (seq_length n 0) at 3. generalize (seq 0 n). induction l as [|a l IH]; auto. cbn [filter]. destruct (memb a heads) eqn:E1.
  - apply memb_in, H in E1. apply memb_in in E1. rewrite E1. simpl. lia.
  - destruct (negb (memb a visited)); simpl; lia.
Qed.

Lemma minimal_spec F g : labelled L1 g -> 1 + n <= F -> exists L g', removeNonMinimalLabels F g = Ok g' /\ labelled L g' /\ minimal L.
Proof.
  intros HG HF. assert (N0 : 0 < n). { destruct (fk_root _ F0) as (x & Ex & _). apply nth_error_Some. congruence. }
  unfold removeNonMinimalLabels. destruct (heads_loop_spec F L1 g [0] [0] []) as (L & g' & vi & he & E & HG' & [W1 W2 W3 W4 W5 W6]); auto.
  - split.
    + intros v. cbn [memb existsb]. destruct (Nat.eqb_spec v 0) as [->|]; auto. rewrite (sn_root _ (sp_sound _ SP)). auto.
    + intros v [<-|[]]. split; left; auto.
    + intros v. split; [intros []|]. intros ([<-|[]] & H). destruct H. left; auto.
    + intros v [<-|[]]. auto.
    + left; auto.
    + intros v c [<-|[]] _ H. destruct H. left; auto.
  - simpl. pose proof (unseen_le [0]). lia.
  - rewrite E. cbn [bind]. replace (length g) with n by (destruct HG; auto).
    assert (PV : forall v, v < n -> passed v -> In v vi).
    { intros v HL P. pose proof (fc_reach _ _ I0 v HL) as R. clear HL. induction R as [|u c R IH Hc]; auto. unfold edge in Hc.
      destruct (W6 u c) as [|[]]; auto; [|apply (passed_up u c Hc P)]. apply IH. apply (passed_up u c Hc P). }
    destruct (unlabel_rest_spec F L g' (descending n he) vi HG') as (L2 & g2 & E2 & HG2 & ER).
    + intros v Hv. unfold descending in Hv. apply filter_In in Hv as (Hv & _). apply in_rev, in_seq in Hv. lia.
    + pose proof (unseen_heads vi he) as Q. assert (X : forall v, In v he -> In v vi) by (intros v Hv; apply W3 in Hv; tauto). specialize (Q X). lia.
    + rewrite E2. exists L2, g2. split; auto. split; auto. split.
      * intros v P. destruct (ER v) as [->|(-> & _)]; auto. rewrite W1. destruct P as [->|P].
        -- rewrite (sn_root _ (sp_sound _ SP)). destruct (_ && _); auto.
        -- assert (HL : v < n) by (apply (sound_lt L1); [apply SP|rewrite P; discriminate]). assert (X : memb v vi = true) by (apply memb_in; apply PV; auto; right; auto). rewrite X. unfold isU. rewrite P. auto.
      * intros v c P Hc NP. destruct (edge_bounds g0 v c F0 Hc) as (C0 & CL & VL). destruct (W6 v c) as [Hv|[]]; auto.
        destruct (ER c) as [->|(_ & X)]; [|tauto]. rewrite W1. unfold isU. destruct (N.eqb_spec (L1 c) UNLABELABLE) as [EU|]; [destruct NP; right; auto|]. rewrite andb_false_r. auto.
      * intros v. destruct (ER v) as [->|(-> & _)]; auto. rewrite W1. destruct (_ && _); auto.
Qed.

(** The keyword that is known in a state *)
Definition known (v : nat) : N := if isU (L1 v) then NOLABEL else L1 v.

Lemma known_passed v : v < n -> known v = NOLABEL -> passed v.
Proof.
  intros HL E. unfold known, isU in E. destruct (N.eqb_spec (L1 v) UNLABELABLE) as [EU|]; [right; auto|]. left. destruct (Nat.eq_dec v 0) as [|Hn]; auto. destruct (sp_live _ SP v Hn HL E).
Qed.
Lemma passed_known v : passed v -> known v = NOLABEL.
Proof. intros [->|E]; unfold known, isU; [rewrite (sn_root _ (sp_sound _ SP))|rewrite E]; auto. Qed.
Lemma unpassed_known v : ~ passed v -> known v = L1 v.
Proof. intros H. unfold known, isU. destruct (N.eqb_spec (L1 v) UNLABELABLE); auto. destruct H. right; auto. Qed.

Lemma known_edge v c : In c (outs g0 v) -> known v <> NOLABEL -> known c = known v.
Proof.
  intros Hc Hk. destruct (edge_bounds g0 v c F0 Hc) as (C0 & CL & VL). assert (NP : ~ passed v) by (intros P; apply Hk; apply passed_known; auto).
  assert (NC : ~ passed c) by (intros P; apply NP; eapply passed_up; eauto). rewrite !unpassed_known by auto.
  destruct (sp_closed _ SP v c) as [Z|[Z|[]]]; auto; [intros ->; apply NP; left; auto|apply (sp_live _ SP); auto|]. destruct NP. right. auto.
Qed.

Lemma known_match v : mat g0 v = true -> known v = lbl g0 v /\ known v <> NOLABEL.
Proof.
  intros HM. pose proof (sn_mat _ (sp_sound _ SP) v HM) as E. pose proof (match_label g0 v F0) as X. assert (NP : lbl g0 v <> NOLABEL) by (apply X; auto).
  assert (A : arrives g0 (lbl g0 v) v) by (apply ar_here; auto). apply arrives_label in A.
  assert (known v = lbl g0 v); [|split; congruence]. unfold known, isU. rewrite E. destruct (N.eqb_spec (lbl g0 v) UNLABELABLE) as [Z|]; auto. rewrite Z in A. lia.
Qed.

Section Labels.
Variables (L : nat -> N) (g : nfa).
Hypotheses (HG : labelled L g) (MN : minimal L).

Lemma lab_outs v : outs g v = outs g0 v.
Proof.
  destruct (Nat.lt_ge_cases v n) as [HL|HL].
  - destruct (nth_lt g0 v HL) as (x & Ex). unfold outs. rewrite Ex. rewrite (proj2 HG v x Ex). auto.
  - unfold outs. destruct HG as (Hn & _). rewrite (proj2 (nth_error_None g v)), (proj2 (nth_error_None g0 v)); auto. unfold n in *. lia.
Qed.

Lemma lab_enters c b : enters g c b = enters g0 c b.
Proof.
  unfold enters. destruct (Nat.lt_ge_cases c n) as [HL|HL].
  - destruct (nth_lt g0 c HL) as (x & Ex). rewrite Ex. rewrite (proj2 HG c x Ex). auto.
  - destruct HG as (Hn & _). rewrite (proj2 (nth_error_None g c)), (proj2 (nth_error_None g0 c)); auto. unfold n in *. lia.
Qed.

Lemma lab_back v x : nth_error g v = Some x -> exists y, nth_error g0 v = Some y /\ x = mkV (v_trans y) (v_match y) (L v) (v_out y) (v_in y).
Proof.
  intros E. assert (HL : v < n) by (destruct HG as (<- & _); apply nth_error_Some; congruence). destruct (nth_lt g0 v HL) as (y & Ey). exists y. split; auto. rewrite (proj2 HG v y Ey) in E. congruence.
Qed.

Lemma label_known v : v < n -> L v = NOLABEL \/ L v = known v.
Proof.
  intros HL. destruct (mn_other _ MN v) as [H|H]; auto. destruct (N.eq_dec (known v) NOLABEL) as [E|E]; [left; apply (mn_passed _ MN); apply known_passed; auto|].
  right. rewrite H. symmetry. apply unpassed_known. intros P. apply E. apply passed_known; auto.
Qed.

Lemma label_head v c : In c (outs g0 v) -> known v = NOLABEL -> L c = known c.
Proof.
  intros Hc E. destruct (edge_bounds g0 v c F0 Hc) as (C0 & CL & VL). pose proof (known_passed v VL E) as P. destruct (N.eq_dec (known c) NOLABEL) as [EC|EC].
  - rewrite EC. apply (mn_passed _ MN). apply known_passed; auto.
  - assert (NP : ~ passed c) by (intros X; apply EC; apply passed_known; auto). rewrite (mn_head _ MN v c P Hc NP). symmetry. apply unpassed_known; auto.
Qed.

Lemma guard_good0 : 2 <= n -> good0 g known.
Proof.
  intros N2. assert (EO : forall v c, edge g v c <-> In c (outs g0 v)) by (intros v c; unfold edge; rewrite lab_outs; tauto). split.
  - destruct (fk_root _ F0) as (x & Ex & T & M & Lx & Ix). exists (mkV (v_trans x) (v_match x) (L 0) (v_out x) (v_in x)). split; [apply HG; auto|]. cbn. split; auto. split; auto.
    split; [apply (mn_passed _ MN); left; auto|]. split; auto. intros E. assert (R : reach g0 1) by (apply (fc_reach _ _ I0); auto).
    assert (forall v, reach g0 v -> v = 0); [|specialize (H 1 R); discriminate]. intros v Rv. induction Rv as [|u c R' IH Hc]; auto. subst u. unfold edge, outs in Hc. rewrite Ex, E in Hc. destruct Hc.
  - intros v x H0 Ex. destruct (lab_back v x Ex) as (y & Ey & ->). cbn. split; [apply (fk_state _ F0 v y); auto|]. apply (fk_leaf _ F0 v y); auto.
  - intros v c Hc. apply EO in Hc. destruct (edge_bounds g0 v c F0 Hc) as (C0 & CL & _). split; auto. destruct HG as (-> & _). auto.
  - intros v HL. assert (R : reach g0 v) by (apply (fc_reach _ _ I0); destruct HG as (Hn & _); unfold n in Hn; lia). clear HL. induction R as [|u c R IH Hc]; [constructor|]. apply reach_step with u; auto. apply EO. auto.
  - intros v x Ex. destruct (lab_back v x Ex) as (y & Ey & ->). cbn. destruct (mn_other _ MN v) as [-> | ->]; [lia|].
    destruct (sn_arr _ (sp_sound _ SP) v) as [->|[(-> & _)|A]]; [lia|unfold UNLABELABLE, NOLABEL; lia|]. apply arrives_label in A. unfold UNLABELABLE, NOLABEL in *. lia.
  - apply passed_known. left; auto.
  - intros v c Hc. apply EO in Hc. apply known_edge; auto.
  - intros v x Ex HM. destruct (lab_back v x Ex) as (y & Ey & ->). cbn in HM. apply known_match. unfold mat. rewrite Ey. auto.
  - intros v x Ex. destruct (lab_back v x Ex) as (y & Ey & ->). cbn. apply label_known. apply nth_error_Some. unfold n. congruence.
  - intros v c x Hc HK Ex. apply EO in Hc. destruct (lab_back c x Ex) as (y & Ey & ->). cbn. eapply label_head; eauto.
Qed.

Lemma inherit v c : In c (outs g0 v) -> (if (L c =? NOLABEL)%N then known v else L c) = known c.
Proof.
  intros Hc. destruct (edge_bounds g0 v c F0 Hc) as (C0 & CL & VL). destruct (N.eq_dec (known v) NOLABEL) as [E|E].
  - rewrite (label_head v c Hc E). destruct (N.eqb_spec (known c) NOLABEL); congruence.
  - pose proof (known_edge v c Hc E) as K. destruct (label_known c CL) as [-> | ->]; [rewrite N.eqb_refl; auto|]. destruct (N.eqb_spec (known c) NOLABEL); congruence.
Qed.

Lemma own_label v y lab0 : nth_error g0 v = Some y -> v_match y = true -> (if (v_label y =? NOLABEL)%N then lab0 else v_label y) = known v.
Proof.
  intros Ey HM. assert (M : mat g0 v = true) by (unfold mat; rewrite Ey; auto). destruct (known_match v M) as (E & EN). unfold lbl in E. rewrite Ey in E. rewrite <- E. destruct (N.eqb_spec (known v) NOLABEL); congruence.
Qed.

Lemma guard_best l : forall w v lab lab0 pos, v < n -> (if (L v =? NOLABEL)%N then lab else L v) = known v -> best g l lab w v pos = best g0 l lab0 w v pos.
Proof.
  induction w as [|b w IH]; intros v lab lab0 pos HL E; destruct (nth_lt g0 v HL) as (y & Ey); cbn [best]; rewrite (proj2 HG v y Ey), Ey; cbn [v_label v_match v_out]; rewrite E.
  - destruct (v_match y) eqn:M; auto. rewrite (own_label v y lab0 Ey M). auto.
  - rewrite (first_some_ext (fun c => if enters g c b then best g l (known v) w c (pos + 1) else None)
      (fun c => if enters g0 c b then best g0 l (if (v_label y =? NOLABEL)%N then lab0 else v_label y) w c (pos + 1) else None)).
    + destruct (v_match y) eqn:M; auto. rewrite (own_label v y lab0 Ey M). auto.
    + intros c Hc. assert (Hc' : In c (outs g0 v)) by (unfold outs; rewrite Ey; auto). rewrite lab_enters. destruct (enters g0 c b); auto. apply IH; [apply (edge_bounds g0 v c F0 Hc')|]. apply inherit; auto.
Qed.

Lemma guard_accepts l : forall w v lab lab0, v < n -> (if (L v =? NOLABEL)%N then lab else L v) = known v -> (accepts g l lab w v <-> accepts g0 l lab0 w v).
Proof.
  induction w as [|b w IH]; intros v lab lab0 HL E; destruct (nth_lt g0 v HL) as (y & Ey); pose proof (proj2 HG v y Ey) as Eg; split; intros A; inversion A as [? ? x HX HM HN|? ? x ? ? c HX HO HE HA]; subst.
  - rewrite Eg in HX. injection HX as <-. cbn in HM. apply acc_match with y; auto. unfold newlab. rewrite (own_label v y lab0 Ey HM). rewrite <- E. auto.
  - rewrite Ey in HX. injection HX as <-. eapply acc_match; [exact Eg| |]; auto. unfold newlab. cbn. rewrite E. rewrite (own_label v y lab0 Ey HM). auto.
  - rewrite Eg in HX. injection HX as <-. cbn in HO. assert (Hc' : In c (outs g0 v)) by (unfold outs; rewrite Ey; auto). rewrite lab_enters in HE. apply acc_step with y c; auto.
    unfold newlab in HA. cbn in HA. rewrite E in HA. eapply IH; [apply (edge_bounds g0 v c F0 Hc')|apply inherit; exact Hc'|exact HA].
  - rewrite Ey in HX. injection HX as <-. assert (Hc' : In c (outs g0 v)) by (unfold outs; rewrite Ey; auto). eapply acc_step; [exact Eg|exact HO|rewrite lab_enters; auto|]. unfold newlab. cbn. rewrite E.
    eapply IH; [apply (edge_bounds g0 v c F0 Hc')|apply inherit; exact Hc'|exact HA].
Qed.
End Labels.
End Minimal.

(** labelGuardStates on an automaton made by adding patterns *)
Theorem guard_spec F : guard_fuel g0 <= F -> 2 <= length g0 -> exists g K, labelGuardStates F g0 = Ok g /\ good0 g K /\ length g = length g0 /\
  (forall v x, nth_error g0 v = Some x -> exists l, nth_error g v = Some (mkV (v_trans x) (v_match x) l (v_out x) (v_in x)) /\ (l = NOLABEL \/ LS l)) /\
  (forall l w pos, best g l NOLABEL w 0 pos = best g0 l NOLABEL w 0 pos) /\ (forall l w, matches g l w <-> matches g0 l w).
Proof.
  intros HF N2. unfold guard_fuel in HF. destruct (propagate_all F) as (L1 & g1 & E1 & HG1 & SP); [unfold n; lia|]. destruct (minimal_spec L1 SP F g1 HG1) as (L & g & E2 & HG & MN); [unfold n; lia|].
  exists g, (known L1). unfold labelGuardStates. rewrite E1. cbn [bind]. split; auto. split; [apply (guard_good0 L1 SP L g HG MN); auto|]. split; [apply HG|]. split; [|split].
  - intros v x Ex. exists (L v). split; [apply HG; auto|]. destruct (mn_other _ _ MN v) as [->|H]; auto. destruct (N.eq_dec (L v) NOLABEL) as [|NN]; auto. right.
    destruct (sn_arr _ (sp_sound _ SP) v) as [Z|[(Z & _)|A]]; [congruence| |].
    + exfalso. apply NN. apply (mn_passed _ _ MN). right; auto.
    + rewrite H. eapply arrives_in; eauto.
  - intros l w pos. apply (guard_best L1 SP L g HG MN); [unfold n; lia|]. rewrite (mn_passed _ _ MN 0) by (left; auto). rewrite N.eqb_refl. symmetry. apply passed_known; auto. left; auto.
  - intros l w. apply (guard_accepts L1 SP L g HG MN); [unfold n; lia|]. rewrite (mn_passed _ _ MN 0) by (left; auto). rewrite N.eqb_refl. symmetry. apply passed_known; auto. left; auto.
Qed.
End Guard.
