(** subsetDFA: how the successors of a subset state are divided into groups. *)
From Coq Require Import Sorting.Permutation.
From Verif Require Import Base NfaModel VmModel CodegenSpec CodegenSem Thm_Codegen BuildModel BuildProofs OptModel OptSpec OptPrune.
Open Scope nat_scope.

Lemma memb_in x l : memb x l = true <-> In x l.
Proof. unfold memb. rewrite existsb_exists. split; [intros (y & H & E); apply Nat.eqb_eq in E; subst; auto|intros H; exists x; split; auto; apply Nat.eqb_refl]. Qed.

Lemma nodups_in : forall l seen x, In x (nodups seen l) <-> In x l /\ ~ In x seen.
Proof.
  induction l as [|a l IH]; intros seen x; simpl; [tauto|]. destruct (memb a seen) eqn:E.
  - apply memb_in in E. rewrite IH. split; [tauto|]. intros ([->|H] & N); tauto.
  - assert (N : ~ In a seen) by (rewrite <- memb_in; congruence). simpl. rewrite IH. simpl. destruct (Nat.eq_dec a x) as [->|Hn]; tauto.
Qed.

Lemma nodups_nodup : forall l seen, NoDup (nodups seen l).
Proof.
  induction l as [|a l IH]; intros seen; simpl; [constructor|]. destruct (memb a seen); auto. constructor; auto. rewrite nodups_in. simpl. tauto.
Qed.

Lemma nodups_first {B} (f : nat -> option B) : forall l seen, (forall x, In x seen -> f x = None) -> first_some f (nodups seen l) = first_some f l.
Proof.
  induction l as [|a l IH]; intros seen H; simpl; auto. destruct (memb a seen) eqn:E.
  - apply memb_in in E. rewrite (H a E). auto.
  - simpl. destruct (f a) eqn:Ef; auto. apply IH. intros x [<-|Hx]; auto.
Qed.

Lemma map_res_ok {A B} (f : A -> res B) (h : A -> B) l : (forall a, In a l -> f a = Ok (h a)) -> map_res f l = Ok (map h l).
Proof. induction l as [|a l IH]; intros H; simpl; auto. rewrite (H a) by (left; auto). simpl. rewrite IH; auto. intros; apply H; right; auto. Qed.

Lemma tails_on_ok g b : fsm_ok g -> forall vs, (forall v, In v vs -> v <> 0 /\ v < length g) -> tails_on g vs b = Ok (filter (fun v => N.testbit (bts g v) b) vs).
Proof.
  intros F. induction vs as [|v vs IH]; intros H; cbn [tails_on filter]; auto. destruct (H v) as (H0 & HL); [left; auto|].
  rewrite bytes_at_bts by auto. cbn [bind]. rewrite IH by (intros; apply H; right; auto). cbn [bind]. auto.
Qed.

Lemma Forall2_in_r {A B} (R : A -> B -> Prop) l l' : Forall2 R l l' -> forall b, In b l' -> exists a, In a l /\ R a b.
Proof. induction 1 as [|a b l l' H F IH]; intros c; simpl; [intros []|]. intros [<-|Hc]; [exists a; auto|]. destruct (IH c Hc) as (x & Hx & Hr). exists x. auto. Qed.

(** ** Bytes with the same list *)
Section Groups.
Variable T : N -> list nat.

Definition grouped (done : list N) (m : list (N * list nat)) : Prop :=
  NoDup (map snd m) /\ (forall s l, In (s, l) m -> (exists b, N.testbit s b = true) /\ forall b, N.testbit s b = true <-> In b done /\ T b = l) /\
  (forall b, In b done -> exists s, In (s, T b) m).

Lemma group_add_in b l : forall m, NoDup (map snd m) ->
  NoDup (map snd (group_add b l m)) /\ (forall x, In x (map snd (group_add b l m)) <-> x = l \/ In x (map snd m)) /\
  forall s x, In (s, x) (group_add b l m) <-> (x <> l /\ In (s, x) m) \/ (x = l /\ exists s0, s = N.setbit s0 b /\ (In (s0, l) m \/ (s0 = 0%N /\ ~ In l (map snd m)))).
Proof.
  induction m as [|[s0 l0] m IH]; intros H; cbn [group_add map snd].
  - split; [repeat constructor; simpl; tauto|]. split; [simpl; intuition auto|]. intros s x. simpl. split.
    + intros [[= <- <-]|[]]. right. split; auto. exists 0%N. auto.
    + intros [(_ & [])|(-> & s0 & -> & [[]|(-> & _)])]. left. auto.
  - inversion H as [|? ? N0 N1]; subst. destruct (IH N1) as (I1 & I2 & I3). destruct (list_eq_dec Nat.eq_dec l l0) as [->|Hn]; cbn [map snd].
    + split; [constructor; auto|]. split; [simpl; intuition auto|]. intros s x. simpl. split.
      * intros [[= <- <-]|Hi]; [right; split; auto; exists s0; auto|]. left. split; auto. intros ->. apply N0. apply in_map_iff. exists (s, l0). auto.
      * intros [(Hx & [[= <- <-]|Hi])|(-> & s1 & -> & [[[= <-]|Hi]|(_ & Hi)])]; [congruence|auto|auto| |].
        -- exfalso. apply N0. apply in_map_iff. exists (s1, l0). auto.
        -- exfalso. apply Hi. left. auto.
    + split; [constructor; auto; rewrite I2; intros [<-|Hi]; auto|]. split; [intros x; simpl; rewrite I2; tauto|]. intros s x. simpl. rewrite I3. split.
      * intros [[= <- <-]|[(Hx & Hi)|(-> & s1 & -> & [Hi|(-> & Hi)])]]; [left; split; auto|left; auto| |].
        -- right. split; auto. exists s1. auto.
        -- right. split; auto. exists 0%N. split; auto. right. split; auto. intros [E|X]; auto.
      * intros [(Hx & [[= <- <-]|Hi])|(-> & s1 & -> & [[[= <- E]|Hi]|(-> & Hi)])]; [left; auto|right; left; auto|congruence| |].
        -- right. right. split; auto. exists s1. auto.
        -- right. right. split; auto. exists 0%N. split; auto. right. split; auto.
Qed.

Lemma group_step done m b : grouped done m -> ~ In b done -> grouped (done ++ [b]) (group_add b (T b) m).
Proof.
  intros (A & B & C) Hb. destruct (group_add_in b (T b) m A) as (I1 & I2 & I3). split; auto. split.
  - intros s l Hi. apply I3 in Hi as [(Hl & Hi)|(-> & s0 & -> & Hi)].
    + destruct (B s l Hi) as (E & F). split; auto. intros c. rewrite F, in_app_iff. simpl. split; [tauto|]. intros ([H|[<-|[]]] & E'); [auto|congruence].
    + split; [exists b; apply N.setbit_eq|]. intros c. rewrite N.setbit_iff, in_app_iff. simpl. destruct (N.eq_dec b c) as [<-|Hn]; [tauto|].
      destruct Hi as [Hi|(-> & Hi)].
      * destruct (B _ _ Hi) as (_ & F). rewrite F. split; [tauto|]. intros ([H|[H|[]]] & E); [auto|congruence].
      * rewrite N.bits_0. split; [intros [H|H]; congruence|]. intros ([H|[H|[]]] & E); [|congruence].
        exfalso. apply Hi. destruct (C c H) as (s & Hs). rewrite E in Hs. apply in_map_iff. exists (s, T b). auto.
  - intros c Hc. apply in_app_iff in Hc as [Hc|[<-|[]]].
    + destruct (C c Hc) as (s & Hs). destruct (list_eq_dec Nat.eq_dec (T c) (T b)) as [E|E].
      * exists (N.setbit s b). rewrite E. apply I3. right. split; auto. exists s. rewrite <- E. auto.
      * exists s. apply I3. auto.
    + assert (X : In (T b) (map snd (group_add b (T b) m))) by (apply I2; auto). apply in_map_iff in X as ((s, x) & E & Hi). simpl in E. subst x. eauto.
Qed.

Lemma group_all : forall bs done m, grouped done m -> NoDup (done ++ bs) ->
  grouped (done ++ bs) (fold_left (fun m p => group_add (fst p) (snd p) m) (map (fun b => (b, T b)) bs) m).
Proof.
  induction bs as [|b bs IH]; intros done m G N; cbn [map fold_left]; [rewrite app_nil_r; auto|].
  replace (done ++ b :: bs) with ((done ++ [b]) ++ bs) by (rewrite <- app_assoc; auto). apply IH; [|rewrite <- app_assoc; auto].
  cbn [fst snd]. apply group_step; auto. apply NoDup_remove_2 in N. intros H. apply N. apply in_app_iff. auto.
Qed.
End Groups.

Lemma bytes256_in b : In b bytes256 <-> (b < 256)%N.
Proof.
  unfold bytes256. rewrite in_map_iff. split; [intros (n & <- & H); apply in_seq in H; lia|]. intros H. exists (N.to_nat b). split; [lia|]. apply in_seq. lia.
Qed.

Lemma bytes256_nodup : NoDup bytes256.
Proof. unfold bytes256. apply FinFun.Injective_map_NoDup; [|apply seq_NoDup]. intros a b H. lia. Qed.

Lemma group_bytes_spec T : grouped T bytes256 (group_bytes (map (fun b => (b, T b)) bytes256)).
Proof.
  assert (G : grouped T [] []) by (split; [constructor|]; split; [intros s l []|intros b []]).
  pose proof bytes256_nodup as N. unfold group_bytes. generalize dependent bytes256. intros bs N. exact (group_all T bs [] [] G N).
Qed.
Local Opaque bytes256.

Lemma ins_group_perm p : forall m, Permutation (ins_group p m) (p :: m).
Proof.
  induction m as [|q m IH]; cbn [ins_group]; auto. destruct (lex_le _ _); auto. rewrite IH. apply perm_swap.
Qed.
Lemma sort_groups_perm m : Permutation (sort_groups m) m.
Proof. unfold sort_groups. induction m as [|p m IH]; cbn [fold_right]; auto. rewrite ins_group_perm. auto. Qed.

(** ** Groups of vertices *)
Definition uniform (g : nfa) (l : list nat) : Prop := (exists m, l = [m] /\ mat g m = true) \/ (l <> [] /\ forall v, In v l -> mat g v = false).

Lemma det_groups_spec g : forall vs cur, (forall v, In v vs -> v < length g) -> (forall v, In v cur -> mat g v = false) ->
  exists gs, det_groups g vs cur = Ok gs /\ concat gs = rev cur ++ vs /\ forall l, In l gs -> uniform g l.
Proof.
  assert (CL : forall cur : list nat, (forall v, In v cur -> mat g v = false) -> let c := match cur with [] => [] | _ => [rev cur] end in concat c = rev cur /\ forall l, In l c -> uniform g l).
  { intros cur H. destruct cur as [|a cur]; simpl; [split; auto; intros l []|]. rewrite app_nil_r. split; auto. intros l [<-|[]].
    right. split; [destruct (rev cur); discriminate|]. intros v Hv. apply H. apply in_app_iff in Hv as [Hv|[<-|[]]]; [right; apply in_rev; auto|left; auto]. }
  induction vs as [|v vs IH]; intros cur HV HC.
  - destruct (CL cur HC) as (C1 & C2). exists (match cur with [] => [] | _ => [rev cur] end). split; [reflexivity|]. rewrite app_nil_r. auto.
  - assert (HL : v < length g) by (apply HV; left; auto). destruct (nth_lt g v HL) as (x & Ex). cbn [det_groups]. unfold get. rewrite Ex. cbn [bind].
    assert (M : mat g v = v_match x) by (unfold mat; rewrite Ex; auto). destruct (v_match x) eqn:Em.
    + destruct (IH []) as (gs & -> & E1 & E2); [intros; apply HV; right; auto|intros ? []|]. cbn [bind]. destruct (CL cur HC) as (C1 & C2). eexists. split; [reflexivity|].
      rewrite concat_app, C1. simpl. rewrite E1. split; auto. intros l Hl. apply in_app_iff in Hl as [Hl|[<-|Hl]]; auto. left. exists v. auto.
    + destruct (IH (v :: cur)) as (gs & -> & E1 & E2); [intros; apply HV; right; auto|intros u [<-|Hu]; auto|]. exists gs. split; auto. split; auto.
      rewrite E1. simpl. rewrite <- app_assoc. auto.
Qed.

(** * The groups of the successors of [heads] *)
Definition succs (g : nfa) (heads : list nat) : list nat := flat_map (outs g) heads.
Definition on_byte (g : nfa) (b : N) (l : list nat) : list nat := filter (fun v => N.testbit (bts g v) b) l.

Record groups_of (g : nfa) (heads : list nat) (gs : list (N * list nat)) : Prop := {
  gr_byte : forall b, concat (map snd (filter (fun p => N.testbit (fst p) b) gs)) = nodups [] (on_byte g b (succs g heads));
  gr_group : forall bs l, In (bs, l) gs -> set_ok bs /\ uniform g l /\ NoDup l /\ (forall v, In v l -> In v (succs g heads)) /\
     forall b v, N.testbit bs b = true -> In v l -> N.testbit (bts g v) b = true;
  gr_nodup : NoDup gs
}.

Lemma below_256 s : (forall b, N.testbit s b = true -> (b < 256)%N) -> (s < 2 ^ 256)%N.
Proof.
  intros H. destruct (N.eq_dec s 0) as [->|H0]; [reflexivity|]. apply N.log2_lt_pow2; [lia|]. apply H. apply N.bit_log2. auto.
Qed.

Lemma nodup_app {A} (a b : list A) : NoDup a -> NoDup b -> (forall x, In x a -> ~ In x b) -> NoDup (a ++ b).
Proof.
  induction a as [|x a IH]; intros HA HB H; simpl; auto. inversion HA; subst. constructor; [rewrite in_app_iff; intros [X|X]; [auto|apply (H x); [left; auto|auto]]|].
  apply IH; auto. intros y Hy. apply H. right. auto.
Qed.

Lemma nodup_concat_l (gs : list (list nat)) : NoDup (concat gs) -> (forall l, In l gs -> l <> []) -> NoDup gs /\ forall l, In l gs -> NoDup l.
Proof.
  induction gs as [|l gs IH]; simpl; intros H N; [split; [constructor|intros ? []]|].
  assert (X : NoDup l /\ NoDup (concat gs) /\ forall x, In x l -> ~ In x (concat gs)).
  { revert H. clear. induction l as [|a l IH]; simpl; intros H; [repeat split; auto; constructor|]. inversion H as [|? ? H1 H2]; subst. destruct (IH H2) as (A & B & C).
    rewrite in_app_iff in H1. repeat split; auto; [constructor; tauto|]. intros x [<-|Hx]; [tauto|auto]. }
  destruct X as (X1 & X2 & X3). destruct (IH X2) as (I1 & I2); [intros; apply N; auto|]. split.
  - constructor; auto. intros Hi. destruct l as [|a l]; [apply (N []); auto|]. apply (X3 a); [left; auto|]. apply in_concat. exists (a :: l). split; auto. left. auto.
  - intros k [<-|Hk]; auto.
Qed.

Lemma filter_all {A} (p : A -> bool) l : (forall a, In a l -> p a = true) -> filter p l = l.
Proof. induction l as [|a l IH]; intros H; simpl; auto. rewrite (H a) by (left; auto). f_equal. apply IH. intros; apply H; right; auto. Qed.
Lemma filter_no {A} (p : A -> bool) l : (forall a, In a l -> p a = false) -> filter p l = [].
Proof. induction l as [|a l IH]; intros H; simpl; auto. rewrite (H a) by (left; auto). apply IH. intros; apply H; right; auto. Qed.

Lemma filter_concat {A} (p : A -> bool) l : filter p (concat l) = concat (map (filter p) l).
Proof. induction l as [|a l IH]; simpl; auto. rewrite filter_app, IH. auto. Qed.

Lemma groups_spec g heads : fsm_ok g -> (forall h, In h heads -> h < length g) -> exists gs, subset_groups g heads = Ok gs /\ groups_of g heads gs.
Proof.
  intros F HH. assert (SB : forall v, In v (succs g heads) -> v <> 0 /\ v < length g).
  { intros v Hv. apply in_flat_map in Hv as (h & _ & Hv). destruct (edge_bounds g h v F Hv) as (A & B & _). auto. }
  unfold subset_groups. rewrite (map_res_ok _ (outs g)).
  2:{ intros h Hh. destruct (nth_lt g h (HH h Hh)) as (x & Ex). unfold get, outs. rewrite Ex. auto. }
  cbn [bind]. rewrite <- flat_map_concat_map. fold (succs g heads). set (T := fun b => nodups [] (on_byte g b (succs g heads))).
  rewrite (map_res_ok _ (fun b => (b, T b))).
  2:{ intros b _. rewrite tails_on_ok; auto. }
  cbn [bind]. destruct (group_bytes_spec T) as (G1 & G2 & G3). set (m := group_bytes (map (fun b => (b, T b)) bytes256)) in *.
  pose proof (sort_groups_perm m) as PM. set (ms := sort_groups m) in *.
  assert (TS : forall b v, In v (T b) -> In v (succs g heads) /\ N.testbit (bts g v) b = true).
  { intros b v Hv. apply nodups_in in Hv as (Hv & _). apply filter_In in Hv. auto. }
  (* every entry of the map *)
  assert (EN : forall s l, In (s, l) ms -> set_ok s /\ (forall b, N.testbit s b = true <-> (b < 256)%N /\ T b = l) /\ NoDup l /\ forall v, In v l -> In v (succs g heads)).
  { intros s l Hi. apply (Permutation_in _ PM) in Hi. destruct (G2 s l Hi) as ((b & Hb) & Q). split; [|split; [|split]].
    - split; [intros ->; rewrite N.bits_0 in Hb; discriminate|]. apply below_256. intros c Hc. apply Q in Hc as (Hc & _). apply bytes256_in. auto.
    - intros c. rewrite Q, bytes256_in. tauto.
    - apply Q in Hb as (_ & <-). apply nodups_nodup.
    - intros v Hv. apply Q in Hb as (_ & <-). apply (TS b). auto. }
  assert (NS : NoDup (map snd ms)) by (eapply Permutation_NoDup; [apply Permutation_map; symmetry; exact PM|auto]).
  assert (CO : forall b, (b < 256)%N -> exists s, In (s, T b) ms).
  { intros b Hb. destruct (G3 b) as (s & Hs); [apply bytes256_in; auto|]. exists s. apply (Permutation_in _ (Permutation_sym PM)). auto. }
  clearbody ms. clear G1 G2 G3 PM m.
  (* the groups of each entry *)
  assert (GS : exists gss, map_res (fun p : N * list nat => l <- det_groups g (snd p) [] ;; Ok (map (pair (fst p)) l)) ms = Ok gss /\
    Forall2 (fun (p : N * list nat) gs => exists l, gs = map (pair (fst p)) l /\ concat l = snd p /\ forall k, In k l -> uniform g k) ms gss).
  { clear NS CO. induction ms as [|[s l] ms IH]; [exists []; split; auto|]. destruct (EN s l) as (_ & _ & _ & HV); [left; auto|].
    destruct IH as (gss & E & FA); [intros; apply EN; right; auto|]. cbn [map_res fst snd].
    destruct (det_groups_spec g l []) as (gs & -> & E1 & E2); [intros v Hv; apply SB; auto|intros ? []|]. cbn [bind]. rewrite E. cbn [bind]. eexists. split; [reflexivity|]. constructor; auto. exists gs. simpl. auto. }
  destruct GS as (gss & -> & FA). cbn [bind]. exists (concat gss). split; auto. split.
  - intros b. fold (T b). rewrite filter_concat. destruct (N.lt_ge_cases b 256) as [Hb|Hb].
    + destruct (CO b Hb) as (s & Hs).
      assert (X : forall L, (forall q, In q ms -> ~ In q L -> True) -> True) by auto. clear X.
      assert (Z : forall ms' gss', Forall2 (fun (p : N * list nat) gs => exists l, gs = map (pair (fst p)) l /\ concat l = snd p /\ forall k, In k l -> uniform g k) ms' gss' ->
        (forall p, In p ms' -> N.testbit (fst p) b = false) -> concat (map (filter (fun p => N.testbit (fst p) b)) gss') = []).
      { clear. induction 1 as [|p gs ms' gss' (l & -> & _) _ IH]; intros H; simpl; auto. rewrite IH by (intros; apply H; right; auto).
        rewrite filter_no; auto. intros a Ha. apply in_map_iff in Ha as (k & <- & _). simpl. apply H. left. auto. }
      clear CO. induction FA as [|p gs ms gss (l & Egs & El & U) FA IH]; [destruct Hs|]. cbn [map concat]. rewrite map_app, concat_app. simpl in NS. inversion NS as [|? ? N1 N2]; subst.
      destruct Hs as [->|Hs].
      * cbn [fst snd] in *. rewrite (Z ms gss FA).
        -- simpl. rewrite app_nil_r, filter_all. ++ rewrite map_map. simpl. rewrite map_id. auto.
           ++ intros a Ha. apply in_map_iff in Ha as (k & <- & _). simpl. destruct (EN s (T b)) as (_ & Q & _); [left; auto|]. apply Q. auto.
        -- intros [s' l'] Hi. simpl. destruct (N.testbit s' b) eqn:Et; auto. destruct (EN s' l') as (_ & Q & _); [right; auto|]. apply Q in Et as (_ & <-). exfalso. apply N1. apply in_map_iff. exists (s', T b). auto.
      * rewrite filter_no.
        -- simpl. apply IH; auto. intros; apply EN; right; auto.
        -- intros a Ha. apply in_map_iff in Ha as (k & <- & _). simpl. destruct p as [s' l']. simpl in *. destruct (N.testbit s' b) eqn:Et; auto.
           destruct (EN s' l') as (_ & Q & _); [left; auto|]. apply Q in Et as (_ & <-). exfalso. apply N1. apply in_map_iff. exists (s, T b). auto.
    + replace (T b) with (@nil nat).
      * assert (Z : forall x, In x (concat (map (filter (fun p => N.testbit (fst p) b)) gss)) -> False).
        { intros x Hx. apply in_concat in Hx as (l & Hl & Hx). apply in_map_iff in Hl as (gs & <- & Hg). apply filter_In in Hx as (Hx & Et).
          destruct (Forall2_in_r _ _ _ FA gs Hg) as (p & Hp & l & -> & _). apply in_map_iff in Hx as (k & <- & _). simpl in Et. destruct p as [s' l']. destruct (EN s' l' Hp) as (_ & Q & _). apply Q in Et. lia. }
        destruct (concat _) as [|x r]; auto. exfalso. apply (Z x). left. auto.
      * symmetry. destruct (T b) as [|v r] eqn:E; auto. destruct (TS b v) as (Hv & Ht); [rewrite E; left; auto|]. destruct (SB v Hv) as (A & B).
        rewrite <- enters_bts in Ht by auto. unfold enters in Ht. destruct (state_at g v F A B) as (t & mm & ll & o & i & Ex & TO). rewrite Ex in Ht. cbn [v_trans] in Ht.
        exfalso. destruct t as [x|x y|f l|s]; cbn [allowed trans_ok] in *; [apply N.eqb_eq in Ht; lia| | |].
        -- apply orb_true_iff in Ht as [Ht|Ht]; apply N.eqb_eq in Ht; lia.
        -- apply andb_true_iff in Ht as (_ & Ht). apply N.leb_le in Ht. lia.
        -- rewrite N.testbit_odd, N.shiftr_div_pow2, N.div_small in Ht; [discriminate|]. assert (2 ^ 256 <= 2 ^ b)%N by (apply N.pow_le_mono_r; lia). lia.
  - intros bs l Hi. apply in_concat in Hi as (gs & Hg & Hi). destruct (Forall2_in_r _ _ _ FA gs Hg) as (p & Hp & L & -> & EL & U). apply in_map_iff in Hi as (k & [= <- <-] & Hk).
    destruct p as [s T0]. cbn [fst snd] in *. destruct (EN s T0 Hp) as (A & B & C & D).
    assert (HI : forall v, In v k -> In v T0) by (intros v Hv; rewrite <- EL; apply in_concat; exists k; auto).
    split; auto. split; auto. split.
    + rewrite <- EL in C. apply nodup_concat_l in C as (_ & C); auto. intros j Hj ->. destruct (U [] Hj) as [(m & E & _)|(E & _)]; congruence.
    + split; [intros v Hv; apply D; auto|]. intros b v Hb Hv. apply B in Hb as (_ & Eb). apply (TS b). rewrite Eb. auto.
  - clear CO. revert EN NS. induction FA as [|[s T0] gs ms gss (L & -> & EL & U) FA IH]; intros EN NS; [constructor|]. cbn [concat fst snd] in *. inversion NS as [|? ? N1 N2]; subst.
    destruct (EN s (concat L)) as (A & B & C & D); [left; auto|]. apply nodup_app.
    + apply FinFun.Injective_map_NoDup; [intros a b [= E]; auto|]. apply nodup_concat_l; auto. intros j Hj ->. destruct (U [] Hj) as [(m & E & _)|(E & _)]; congruence.
    + apply IH; auto. intros; apply EN; right; auto.
    + intros [s' k] Hx Hy. apply in_map_iff in Hx as (k' & [= <- <-] & Hk). apply in_concat in Hy as (gs & Hg & Hy). destruct (Forall2_in_r _ _ _ FA gs Hg) as ([s2 T2] & Hp & L2 & -> & EL2 & _).
      apply in_map_iff in Hy as (k2 & [= -> ->] & _). simpl in EL2. subst T2. destruct (EN s (concat L2)) as (_ & B2 & _); [right; auto|].
      destruct A as (A & _). destruct (N.eq_dec s 0); [auto|]. pose proof (N.bit_log2 s A) as Hb. pose proof (proj1 (B _) Hb) as (_ & E1). pose proof (proj1 (B2 _) Hb) as (_ & E2).
      apply N1. apply in_map_iff. exists (s, concat L2). split; auto. simpl. congruence.
Qed.
