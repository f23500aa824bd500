(** pruneBranches keeps the preferred matches. *)
From Verif Require Import Base NfaModel VmModel CodegenSpec Thm_Codegen BuildModel BuildProofs OptModel OptSpec.
Open Scope nat_scope.

(** The successors that are kept, [mbs] being the bytes of match states before. *)
Fixpoint kept (B : nat -> N) (M : nat -> bool) (mbs : N) (l : list nat) : list nat :=
  match l with
  | [] => []
  | t :: r =>
      let obs := N.ldiff (B t) mbs in
      let rest := kept B M (if M t then N.lor mbs obs else mbs) r in
      if (obs =? 0)%N then rest else t :: rest
  end.

Lemma kept_in B M : forall l mbs t, In t (kept B M mbs l) -> In t l.
Proof.
  induction l as [|x l IH]; intros mbs t; cbn [kept]; auto. destruct (_ =? 0)%N; simpl; intros H; [right; eapply IH; eauto|].
  destruct H; auto. right. eapply IH; eauto.
Qed.

Lemma kept_ext B M B' M' : forall l mbs, (forall t, In t l -> B t = B' t /\ M t = M' t) -> kept B M mbs l = kept B' M' mbs l.
Proof.
  induction l as [|x l IH]; intros mbs H; cbn [kept]; auto. destruct (H x (or_introl eq_refl)) as (<- & <-).
  rewrite IH by (intros; apply H; right; auto). auto.
Qed.

Lemma kept_nonempty B M l : (forall t, In t l -> B t <> 0%N) -> l <> [] -> kept B M 0 l <> [].
Proof.
  destruct l as [|x l]; [congruence|]. intros H _. cbn [kept]. rewrite N.ldiff_0_r. destruct (N.eqb_spec (B x) 0); [|discriminate].
  destruct (H x); simpl; auto.
Qed.

(** A successor on [b] is only removed behind a match state entered on [b]. *)
Lemma kept_first {A} B M (f : nat -> option A) b :
  (forall t, N.testbit (B t) b = false -> f t = None) ->
  forall l mbs, (forall t, In t l -> M t = true -> N.testbit (B t) b = true -> f t <> None) ->
  N.testbit mbs b = false -> first_some f (kept B M mbs l) = first_some f l.
Proof.
  intros HN. induction l as [|x l IH]; intros mbs HM Hb; cbn [kept first_some]; auto.
  assert (HB : N.testbit (N.ldiff (B x) mbs) b = N.testbit (B x) b) by (rewrite N.ldiff_spec, Hb; simpl; rewrite andb_true_r; auto).
  destruct (N.eqb_spec (N.ldiff (B x) mbs) 0) as [E|E].
  - rewrite E in *. rewrite N.bits_0 in HB. rewrite (HN x) by auto. apply IH; [intros; apply HM; auto; right; auto|].
    destruct (M x); auto. rewrite N.lor_0_r. auto.
  - cbn [first_some]. destruct (f x) eqn:Ef; auto. apply IH; [intros; apply HM; auto; right; auto|].
    destruct (M x) eqn:Em; auto. rewrite N.lor_spec, Hb, HB. simpl. destruct (N.testbit (B x) b) eqn:Eb; auto.
    exfalso. apply (HM x); simpl; auto.
Qed.

(** [g'] is [g] with the successors of the states in [D] pruned. *)
Record pruned (g g' : nfa) (D : list nat) : Prop := {
  pr_len : length g' = length g;
  pr_attr : forall v, attrs g' v = attrs g v;
  pr_out : forall v, outs g' v = if memb v D then kept (bts g) (mat g) 0 (outs g v) else outs g v;
  pr_sym : sym g'
}.

Lemma memb_in v l : memb v l = true <-> In v l.
Proof. unfold memb. rewrite existsb_exists. split; [intros (x & H & E); apply Nat.eqb_eq in E as ->; auto|intros H; exists v; split; auto; apply Nat.eqb_refl]. Qed.
Lemma memb_nin v l : memb v l = false <-> ~ In v l.
Proof. rewrite <- memb_in. destruct (memb v l); split; congruence. Qed.

Lemma count_remove1 v : forall l x, In v l -> count_occ Nat.eq_dec (remove1 v l) x + (if Nat.eq_dec v x then 1 else 0) = count_occ Nat.eq_dec l x.
Proof.
  induction l as [|y l IH]; intros x H; [destruct H|]. simpl. destruct (Nat.eqb_spec y v) as [->|Hn].
  - destruct (Nat.eq_dec v x); lia.
  - destruct H as [->|H]; [congruence|]. simpl. specialize (IH x H). destruct (Nat.eq_dec y x); lia.
Qed.

Lemma removeEdge_spec g h i t : sym g -> nth_error (outs g h) i = Some t ->
  exists g', removeEdge g h i = Ok g' /\ length g' = length g /\ (forall v, attrs g' v = attrs g v) /\
    (forall v, outs g' v = if v =? h then firstn i (outs g h) ++ skipn (S i) (outs g h) else outs g v) /\ sym g'.
Proof.
  intros S Ht. assert (It : In t (outs g h)) by (eapply nth_error_In; eauto).
  pose proof (outs_in _ _ _ It) as Hh. pose proof (sym_bounded _ _ _ S It) as Hl.
  destruct (nth_lt g h Hh) as (x & Ex). assert (Ox : outs g h = v_out x) by (unfold outs; rewrite Ex; auto).
  unfold removeEdge. unfold get at 1. rewrite Ex. cbn [bind]. unfold get at 1. rewrite <- Ox, Ht. cbn [bind].
  set (o' := firstn i (outs g h) ++ skipn (Datatypes.S i) (outs g h)). set (g1 := upd g h (set_out x o')).
  assert (N1 : forall v, nth_error g1 v = if v =? h then Some (set_out x o') else nth_error g v).
  { intros v. unfold g1. destruct (Nat.eqb_spec v h) as [->|]; [apply nth_upd_same; auto|apply nth_upd_other; auto]. }
  assert (L1 : length g1 = length g) by (unfold g1; apply upd_length).
  destruct (nth_lt g1 t) as (y & Ey); [lia|]. unfold get. rewrite Ey. cbn [bind].
  set (y' := set_in y (remove1 h (v_in y))). exists (upd g1 t y').
  assert (N2 : forall v, nth_error (upd g1 t y') v = if v =? t then Some y' else nth_error g1 v).
  { intros v. destruct (Nat.eqb_spec v t) as [->|]; [apply nth_upd_same; lia|apply nth_upd_other; auto]. }
  assert (A : forall v, attrs (upd g1 t y') v = attrs g v).
  { intros v. unfold attrs. rewrite N2. destruct (Nat.eqb_spec v t) as [->|].
    - rewrite N1 in Ey. destruct (Nat.eqb_spec t h) as [->|]; [injection Ey as <-; rewrite Ex; reflexivity|rewrite Ey; reflexivity].
    - rewrite N1. destruct (Nat.eqb_spec v h) as [->|]; auto. rewrite Ex. reflexivity. }
  assert (O : forall v, outs (upd g1 t y') v = if v =? h then o' else outs g v).
  { intros v. unfold outs at 1. rewrite N2. destruct (Nat.eqb_spec v t) as [->|].
    - cbn. rewrite N1 in Ey. destruct (Nat.eqb_spec t h) as [->|]; [injection Ey as <-; reflexivity|unfold outs; rewrite Ey; reflexivity].
    - rewrite N1. destruct (Nat.eqb_spec v h) as [->|]; reflexivity. }
  assert (I : forall v, ins (upd g1 t y') v = if v =? t then remove1 h (ins g t) else ins g v).
  { intros v. unfold ins at 1. rewrite N2. destruct (Nat.eqb_spec v t) as [->|].
    - cbn. rewrite N1 in Ey. destruct (Nat.eqb_spec t h) as [->|]; [injection Ey as <-; unfold ins; rewrite Ex; reflexivity|unfold ins; rewrite Ey; reflexivity].
    - rewrite N1. destruct (Nat.eqb_spec v h) as [->|]; [unfold ins; rewrite Ex|]; reflexivity. }
  split; [reflexivity|]. split; [rewrite upd_length; auto|]. split; [exact A|]. split; [exact O|].
  assert (Co : forall u, count_occ Nat.eq_dec o' u + (if Nat.eq_dec t u then 1 else 0) = count_occ Nat.eq_dec (outs g h) u).
  { intros u. assert (E : outs g h = firstn i (outs g h) ++ t :: skipn (Datatypes.S i) (outs g h)).
    { clear - Ht. revert i Ht. generalize (outs g h). induction l as [|z l IH]; intros [|i] H; simpl in *; try discriminate; [injection H as ->; auto|]. f_equal. apply IH; auto. }
    unfold o'. rewrite E at 3. rewrite !count_occ_app. simpl. destruct (Nat.eq_dec t u); lia. }
  intros v u. rewrite I, O. destruct (Nat.eqb_spec u t) as [->|Hu].
  - assert (Ih : In h (ins g t)) by (apply sym_in; auto). pose proof (count_remove1 h (ins g t) v Ih) as C. specialize (S v t). specialize (Co t).
    destruct (Nat.eq_dec t t); [|congruence]. destruct (Nat.eqb_spec v h) as [->|Hv].
    + destruct (Nat.eq_dec h h); [|congruence]. lia.
    + destruct (Nat.eq_dec h v); [congruence|]. lia.
  - specialize (S v u). specialize (Co u). destruct (Nat.eq_dec t u); [congruence|]. destruct (Nat.eqb_spec v h) as [->|Hv]; lia.
Qed.

Lemma fsm_like g g' : fsm_ok g -> (forall v, attrs g' v = attrs g v) -> sym g' -> (forall v, outs g' v = [] -> outs g v = []) ->
  (forall v c, In c (outs g' v) -> In c (outs g v)) -> fsm_ok g'.
Proof.
  intros F A S O I.
  assert (AT : forall v x', nth_error g' v = Some x' -> exists x, nth_error g v = Some x /\ v_trans x' = v_trans x /\ v_match x' = v_match x /\ v_label x' = v_label x).
  { intros v x' E. specialize (A v). unfold attrs in A. rewrite E in A. destruct (nth_error g v) as [x|]; [|discriminate]. exists x. injection A as H1 H2 H3. auto. }
  split; auto.
  - destruct (fk_root _ F) as (x & E & T & M & L & J). pose proof (A 0) as A0. unfold attrs in A0. rewrite E in A0. destruct (nth_error g' 0) as [x'|] eqn:E'; [|discriminate].
    injection A0 as H1 H2 H3. exists x'. rewrite H1, H2, H3. repeat split; auto. destruct (v_in x') as [|h r] eqn:Ei; auto. exfalso.
    assert (Hh : In 0 (outs g' h)) by (apply sym_in; auto; unfold ins; rewrite E', Ei; left; auto).
    apply I in Hh. apply (edge_bounds g) in Hh; auto. tauto.
  - intros v x' H0 E. destruct (AT v x' E) as (x & E1 & -> & _). eapply (fk_state _ F); eauto.
  - intros v x' H0 E Ho. destruct (AT v x' E) as (x & E1 & _ & -> & _). eapply (fk_leaf _ F); eauto.
    specialize (O v). unfold outs in O. rewrite E, E1 in O. auto.
  - intros v x' E. destruct (AT v x' E) as (x & E1 & _ & -> & ->). eapply (fk_label _ F); eauto.
Qed.

Lemma prune_out_spec g head : fsm_ok g -> forall todo g0 mbs i next seen pre,
  (forall v, attrs g0 v = attrs g v) -> length g0 = length g -> (forall v, v <> head -> outs g0 v = outs g v) -> sym g0 ->
  (forall t, In t todo -> In t (outs g head)) -> outs g0 head = pre ++ todo -> length pre = i ->
  exists g' next' seen', prune_out g0 head mbs i todo next seen = Ok (g', next', seen') /\
    length g' = length g /\ (forall v, attrs g' v = attrs g v) /\ (forall v, v <> head -> outs g' v = outs g v) /\ sym g' /\
    outs g' head = pre ++ kept (bts g) (mat g) mbs todo /\
    (forall v, In v seen' <-> In v seen \/ In v todo) /\
    (forall v, In v next' <-> In v next \/ (In v todo /\ ~ In v seen)) /\
    (NoDup next -> (forall v, In v next -> In v seen) -> NoDup next').
Proof.
  intros F. induction todo as [|t todo IH]; intros g0 mbs i next seen pre A L O S T E Hp; cbn [prune_out].
  - exists g0, next, seen. split; [reflexivity|]. split; auto. split; auto. split; auto. split; auto. split; auto.
    split; [intros v; simpl; tauto|]. split; [intros v; simpl; tauto|auto].
  - destruct (edge_bounds g head t F (T t (or_introl eq_refl))) as (T0 & TL & _).
    assert (F0 : bytes_at g0 t = Ok (bts g t)).
    { pose proof (bytes_at_bts g t F T0 TL) as B. unfold bytes_at, get in *. specialize (A t). unfold attrs in A.
      destruct (nth_error g t) as [x|] eqn:Ex; [|discriminate]. destruct (nth_error g0 t) as [x0|] eqn:Ex0; [|discriminate]. injection A as H1 _ _. cbn [bind] in *. rewrite H1. exact B. }
    rewrite F0. cbn [bind]. set (obs := N.ldiff (bts g t) mbs).
    assert (Hi : nth_error (outs g0 head) i = Some t) by (rewrite E, nth_error_app2, Hp, Nat.sub_diag by lia; auto).
    set (next1 := if negb (memb t seen) then t :: next else next). set (seen1 := if negb (memb t seen) then t :: seen else seen).
    assert (Sn : forall v, In v seen1 <-> In v seen \/ t = v).
    { intros v. unfold seen1. destruct (memb t seen) eqn:Em; simpl; [apply memb_in in Em; split; auto; intros [?|<-]; auto|tauto]. }
    assert (Nx : forall v, In v next1 <-> In v next \/ (t = v /\ ~ In v seen)).
    { intros v. unfold next1. destruct (memb t seen) eqn:Em; simpl; [apply memb_in in Em; split; auto; intros [?|(<- & ?)]; auto; tauto|].
      apply memb_nin in Em. split; [intros [<-|?]; auto|intros [?|(<- & _)]; auto]. }
    assert (Nd : NoDup next -> (forall v, In v next -> In v seen) -> NoDup next1 /\ (forall v, In v next1 -> In v seen1)).
    { intros H1 H2. split.
      - unfold next1. destruct (memb t seen) eqn:Em; simpl; auto. apply memb_nin in Em. constructor; auto.
      - intros v Hv. apply Sn. apply Nx in Hv as [Hv|(<- & _)]; auto. }
    assert (M : forall g1, (forall v, attrs g1 v = attrs g v) -> exists x, get g1 t = Ok x /\ v_match x = mat g t).
    { intros g1 A1. specialize (A1 t). unfold attrs in A1. unfold get, mat. destruct (nth_lt g t TL) as (x & Ex). rewrite Ex in *.
      destruct (nth_error g1 t) as [x1|]; [|discriminate]. exists x1. injection A1 as _ H2 _. auto. }
    destruct (obs =? 0)%N eqn:Eo.
    + destruct (removeEdge_spec g0 head i t S Hi) as (g1 & R & L1 & A1 & O1 & S1). rewrite R. cbn [bind].
      assert (A1' : forall v, attrs g1 v = attrs g v) by (intros; rewrite A1; auto). destruct (M g1 A1') as (x & Gx & Mx). rewrite Gx. cbn [bind]. rewrite Mx.
      destruct (IH g1 (if mat g t then N.lor mbs obs else mbs) i next1 seen1 pre) as (g' & n' & s' & H & H1 & H2 & H3 & H4 & H5 & H6 & H7 & H8); auto; try lia.
      * intros v Hv. rewrite O1. destruct (Nat.eqb_spec v head); [congruence|]. auto.
      * intros u Hu. apply T. right; auto.
      * rewrite O1, Nat.eqb_refl, E. rewrite firstn_app, firstn_all2, Hp, Nat.sub_diag by lia. cbn [firstn]. rewrite app_nil_r.
        replace (Datatypes.S i) with (length (pre ++ [t])) by (rewrite app_length; simpl; lia).
        replace (pre ++ t :: todo) with ((pre ++ [t]) ++ todo) by (rewrite <- app_assoc; auto).
        rewrite skipn_app, skipn_all, Nat.sub_diag. auto.
      * exists g', n', s'. split; [exact H|]. split; auto. split; auto. split; auto. split; auto.
        split; [cbn [kept]; fold obs; rewrite Eo; auto|]. split; [intros v; rewrite H6, Sn; simpl; tauto|].
        split; [|intros P1 P2; destruct (Nd P1 P2); auto].
        intros v. rewrite H7, Nx, Sn. simpl. destruct (in_dec Nat.eq_dec v seen); destruct (Nat.eq_dec t v); tauto.
    + cbn [bind]. destruct (M g0 A) as (x & Gx & Mx). rewrite Gx. cbn [bind]. rewrite Mx.
      destruct (IH g0 (if mat g t then N.lor mbs obs else mbs) (Datatypes.S i) next1 seen1 (pre ++ [t])) as (g' & n' & s' & H & H1 & H2 & H3 & H4 & H5 & H6 & H7 & H8); auto.
      * intros u Hu. apply T. right; auto.
      * rewrite <- app_assoc. auto.
      * rewrite app_length. simpl. lia.
      * exists g', n', s'. split; [exact H|]. split; auto. split; auto. split; auto. split; auto.
        split; [cbn [kept]; fold obs; rewrite Eo, H5, <- app_assoc; auto|]. split; [intros v; rewrite H6, Sn; simpl; tauto|].
        split; [|intros P1 P2; destruct (Nd P1 P2); auto].
        intros v. rewrite H7, Nx, Sn. simpl. destruct (in_dec Nat.eq_dec v seen); destruct (Nat.eq_dec t v); tauto.
Qed.

Lemma pruned_refl g : fsm_ok g -> pruned g g [].
Proof. intros F. split; auto. apply F. Qed.

Lemma bts_nonzero g t : fsm_ok g -> t <> 0 -> t < length g -> bts g t <> 0%N.
Proof.
  intros F H0 H E. destruct (state_at g t F H0 H) as (tr & m & l & o & i & En & T). unfold bts in E. rewrite En in E. simpl in E.
  assert (X : exists b, allowed tr b = true).
  { destruct tr as [x|x y|a b|s]; cbn [allowed trans_ok] in *; [exists x; apply N.eqb_refl|exists x; rewrite N.eqb_refl; auto|exists a; destruct (N.leb_spec a a), (N.leb_spec a b); auto; lia|].
    destruct T as (T & _). exists (N.log2 s). apply N.bit_log2; auto. }
  destruct X as (b & X). rewrite allowed_bytes, E, N.bits_0 in X by auto. discriminate.
Qed.

Lemma pruned_ok g g' D : fsm_ok g -> pruned g g' D -> fsm_ok g'.
Proof.
  intros F P. apply (fsm_like g g'); try apply P; auto.
  - intros v. rewrite (pr_out _ _ _ P). destruct (memb v D); auto. intros H.
    destruct (outs g v) eqn:E; auto. exfalso. revert H. apply kept_nonempty; [|discriminate].
    intros t Ht. rewrite <- E in Ht. apply (edge_bounds g) in Ht; auto. apply bts_nonzero; tauto.
  - intros v c. rewrite (pr_out _ _ _ P). destruct (memb v D); auto. apply kept_in.
Qed.

Lemma prune_loop_spec g : fsm_ok g -> forall fuel g0 next seen D,
  pruned g g0 D -> NoDup next -> (forall v, In v next -> In v seen) -> (forall v, In v seen -> v < length g) ->
  (forall v, In v seen <-> In v next \/ In v D) -> (forall v, In v next -> ~ In v D) -> NoDup D ->
  (forall v c, In v D -> In c (outs g v) -> In c seen) ->
  length g < fuel + length D + 1 ->
  exists g' D', prune_loop fuel g0 next seen = Ok g' /\ pruned g g' D' /\ (forall v, In v seen -> In v D') /\ (forall v c, In v D' -> In c (outs g v) -> In c D').
Proof.
  intros F. induction fuel as [|fuel IH]; intros g0 next seen D P ND NS SL SE NN DD CL HF.
  - destruct next as [|h r].
    + exists g0, D. split; [reflexivity|]. split; auto. split; [intros v Hv; apply SE in Hv as [[]|]; auto|]. intros v c Hv Hc. specialize (CL v c Hv Hc). apply SE in CL as [[]|]; auto.
    + exfalso. assert (B : length (h :: D) <= length (seq 0 (length g))).
      { apply NoDup_incl_length; [constructor; auto; apply NN; left; auto|]. intros v [<-|Hv]; apply in_seq; (split; [lia|]); apply SL, SE; auto. left; left; auto. }
      rewrite seq_length in B. simpl in B. lia.
  - cbn [prune_loop]. destruct next as [|h r].
    + exists g0, D. split; [reflexivity|]. split; auto. split; [intros v Hv; apply SE in Hv as [[]|]; auto|]. intros v c Hv Hc. specialize (CL v c Hv Hc). apply SE in CL as [[]|]; auto.
    + assert (Hh : h < length g) by (apply SL, NS; left; auto).
      assert (Hhl : h < length g0) by (rewrite (pr_len _ _ _ P); auto). destruct (nth_lt g0 h Hhl) as (x & Ex). unfold get. rewrite Ex. cbn [bind].
      assert (Ox : v_out x = outs g h). { pose proof (pr_out _ _ _ P h) as Q. unfold outs at 1 in Q. rewrite Ex in Q. rewrite Q. replace (memb h D) with false; auto. symmetry. apply memb_nin, NN. left; auto. }
      rewrite Ox. pose proof (pruned_ok g g0 D F P) as F0.
      destruct (prune_out_spec g0 h F0 (outs g h) g0 0 0 r seen []) as (g' & n' & s' & H & H1 & H2 & H3 & H4 & H5 & H6 & H7 & H8); auto; try apply P.
      * intros t Ht. unfold outs at 1. rewrite Ex, Ox. auto.
      * unfold outs at 1. rewrite Ex, Ox. auto.
      * rewrite H. cbn [bind]. inversion ND as [|? ? Hnr NDr]; subst.
        destruct (IH g' n' s' (h :: D)) as (g2 & D2 & Q1 & Q2 & Q3 & Q4).
        -- split.
           ++ rewrite H1. apply P.
           ++ intros v. rewrite H2. apply P.
           ++ intros v. cbn [memb existsb]. fold (memb v D). destruct (Nat.eqb_spec v h) as [->|Hv]; simpl.
              ** rewrite H5. simpl. apply kept_ext. intros t Ht. split; [apply bts_attrs|apply mat_attrs]; apply P.
              ** rewrite H3 by auto. apply (pr_out _ _ _ P).
           ++ exact H4.
        -- apply H8; auto. intros v Hv. apply NS. right; auto.
        -- intros v Hv. apply H6. apply H7 in Hv as [Hv|(Hv & _)]; auto. left. apply NS. right; auto.
        -- intros v Hv. apply H6 in Hv as [Hv|Hv]; auto. apply (edge_bounds g h); auto.
        -- intros v. rewrite H6, H7, SE. simpl. assert (X := SE v). simpl in X. destruct (in_dec Nat.eq_dec v seen); [|tauto]. tauto.
        -- intros v Hv [<-|Hd].
           ++ apply H7 in Hv as [Hv|(_ & Hv)]; auto. apply Hv, NS. left; auto.
           ++ apply H7 in Hv as [Hv|(_ & Hv)]; [apply (NN v); auto; right; auto|]. apply Hv, SE. right; auto.
        -- constructor; auto. apply NN. left; auto.
        -- intros v c [<-|Hv] Hc; apply H6; [right; auto|left; eapply CL; eauto].
        -- simpl. lia.
        -- exists g2, D2. split; auto. split; auto. split; auto. intros v Hv. apply Q3, H6. auto.
Qed.

(** The states reached by the walk are pruned, and all others. *)
Theorem prune_spec g fuel : fsm_ok g -> length g <= fuel -> exists g', pruneBranches fuel g = Ok g' /\ fsm_ok g' /\
  length g' = length g /\ (forall v, attrs g' v = attrs g v) /\
  (forall v, outs g' v = outs g v \/ outs g' v = kept (bts g) (mat g) 0 (outs g v)) /\
  (forall v, reach g v -> outs g' v = kept (bts g) (mat g) 0 (outs g v)).
Proof.
  intros F HF. destruct (prune_loop_spec g F fuel g [0] [0] []) as (g' & D & H & P & R & C).
  - apply pruned_refl; auto.
  - constructor; auto. constructor.
  - auto.
  - intros v [<-|[]]. destruct (fk_root _ F) as (x & E & _). apply nth_error_Some. congruence.
  - intros v. simpl. tauto.
  - auto.
  - constructor.
  - intros v c [].
  - simpl. lia.
  - exists g'. split; [exact H|]. split; [eapply pruned_ok; eauto|]. split; [apply P|]. split; [apply P|]. split.
    + intros v. rewrite (pr_out _ _ _ P). destruct (memb v D); auto.
    + intros v Hv. rewrite (pr_out _ _ _ P). replace (memb v D) with true; auto. symmetry. apply memb_in.
      induction Hv as [|v c Hv IH Hc]; [apply R; left; auto|]. eapply C; eauto.
Qed.

Lemma first_some_ext {A B} (f h : A -> option B) l : (forall a, In a l -> f a = h a) -> first_some f l = first_some h l.
Proof. induction l as [|x l IH]; intros H; simpl; auto. rewrite (H x) by (left; auto). destruct (h x); auto. apply IH. intros; apply H; right; auto. Qed.

Lemma best_found g l lab w v pos x : nth_error g v = Some x -> v_match x = true -> newlab x lab = l -> best g l lab w v pos <> None.
Proof.
  intros E M L. destruct w; cbn [best]; rewrite E; fold (newlab x lab); rewrite L, M, N.eqb_refl; simpl; [discriminate|].
  destruct (first_some _ _); discriminate.
Qed.

(** The preferred match, for automata with match states of one keyword. *)
Theorem prune_best g fuel g' label : fsm_ok g -> labels_in g (fun l => l = label) -> pruneBranches fuel g = Ok g' -> length g <= fuel ->
  forall w lab v pos, best g' label lab w v pos = best g label lab w v pos.
Proof.
  intros F LI H HF. destruct (prune_spec g fuel F HF) as (g1 & H1 & F' & L & A & O & _). rewrite H in H1. injection H1 as <-.
  induction w as [|b w IH]; intros lab v pos; cbn [best]; pose proof (A v) as Av; unfold attrs in Av;
    destruct (nth_error g v) as [x|] eqn:Ex, (nth_error g' v) as [x'|] eqn:Ex'; try discriminate; auto; injection Av as A1 A2 A3; rewrite A2, A3; auto.
  set (lab' := if (v_label x =? NOLABEL)%N then lab else v_label x).
  set (f' := fun c => if enters g' c b then best g' label lab' w c (pos + 1)%N else None). set (f := fun c => if enters g c b then best g label lab' w c (pos + 1)%N else None).
  assert (EF : forall c, f' c = f c) by (intros c; unfold f', f; rewrite IH, (enters_attrs g g' c (A c)); auto).
  rewrite (first_some_ext f' f) by auto.
  assert (Q : first_some f (v_out x') = first_some f (v_out x)); [|rewrite Q; auto].
  specialize (O v). unfold outs in O. rewrite Ex, Ex' in O. destruct O as [->| ->]; auto.
  transitivity (first_some f (filter (fun t => negb (t =? 0)) (v_out x))).
  - rewrite <- (kept_first (bts g) (mat g) f b) with (mbs := 0%N) (l := filter _ _).
    + f_equal. replace (filter _ (v_out x)) with (v_out x); auto. symmetry. clear - F Ex. assert (forall t, In t (v_out x) -> t <> 0).
      { intros t Ht. apply (edge_bounds g v); auto. unfold outs. rewrite Ex. auto. }
      induction (v_out x) as [|y l IHl]; simpl; auto. destruct (Nat.eqb_spec y 0); [exfalso; apply (H y); simpl; auto|]. simpl. f_equal. apply IHl. intros; apply H; right; auto.
    + intros t Ht. unfold f. destruct (Nat.eq_dec t 0) as [->|]; [|rewrite enters_bts, Ht; auto].
      destruct (fk_root _ F) as (x0 & E0 & T0 & _). unfold enters. rewrite E0, T0. auto.
    + intros t Ht Hm Hb. apply filter_In in Ht as (Ht & Hz). unfold f. rewrite enters_bts, Hb by (auto; intros ->; discriminate).
      assert (Hl : lbl g t <> NOLABEL) by (apply match_label; auto). destruct (LI t) as [|Hl']; [tauto|]. unfold lbl, mat in *.
      destruct (nth_error g t) as [y|] eqn:Ey; [|discriminate]. apply (best_found g label lab' w t _ y); auto. unfold newlab.
      destruct (N.eqb_spec (v_label y) NOLABEL); [tauto|auto].
    + apply N.bits_0.
  - f_equal. assert (forall t, In t (v_out x) -> t <> 0).
    { intros t Ht. apply (edge_bounds g v); auto. unfold outs. rewrite Ex. auto. }
    clear - H0. induction (v_out x) as [|y l IHl]; simpl; auto. destruct (Nat.eqb_spec y 0); [exfalso; apply (H0 y); simpl; auto|]. simpl. f_equal. apply IHl. intros; apply H0; right; auto.
Qed.

(** Only less is accepted. *)
Lemma prune_accepts g fuel g' l : fsm_ok g -> pruneBranches fuel g = Ok g' -> length g <= fuel ->
  forall lab w v, accepts g' l lab w v -> accepts g l lab w v.
Proof.
  intros F H HF. destruct (prune_spec g fuel F HF) as (g1 & H1 & F' & L & A & O & _). rewrite H in H1. injection H1 as <-.
  assert (AT : forall v x', nth_error g' v = Some x' -> exists x, nth_error g v = Some x /\ v_match x' = v_match x /\ v_label x' = v_label x).
  { intros v x' E. specialize (A v). unfold attrs in A. rewrite E in A. destruct (nth_error g v) as [x|]; [|discriminate]. exists x. injection A as X1 X2 X3. auto. }
  intros lab w v Ha. induction Ha as [lab v x E M NL|lab v x b w c E Hc Hb Ha IH].
  - destruct (AT v x E) as (x1 & E1 & M1 & L1). eapply acc_match; [exact E1|congruence|]. unfold newlab in *. rewrite <- L1. exact NL.
  - destruct (AT v x E) as (x1 & E1 & M1 & L1). eapply acc_step with (c := c); eauto.
    + specialize (O v). unfold outs in O. rewrite E, E1 in O. destruct O as [O|O]; rewrite O in Hc; auto. eapply kept_in; eauto.
    + rewrite (enters_attrs g g' c (A c)) in Hb. auto.
    + unfold newlab in *. rewrite <- L1. auto.
Qed.
