(** subsetDFA ends, and what the automaton it makes looks like. *)
From Coq Require Import Sorting.Permutation.
From Verif Require Import Base NfaModel ByteSetModel VmModel CodegenSpec CodegenSem Thm_Codegen BuildModel BuildProofs OptModel OptSpec OptPrune OptGroups.
Open Scope nat_scope.

Lemma addEdge_spec g h t : h < length g -> t < length g -> sym g ->
  exists g', addEdge g h t = Ok g' /\ length g' = length g /\ (forall v, attrs g' v = attrs g v) /\ (forall v, outs g' v = if v =? h then outs g h ++ [t] else outs g v) /\ sym g'.
Proof.
  intros Hh Ht S. unfold addEdge. destruct (nth_lt g h Hh) as (x & Ex). unfold get. rewrite Ex. cbn [bind].
  destruct (insertEdge_spec g h t (length (v_out x)) Hh Ht) as (g' & E & L & A & O & I); [unfold outs; rewrite Ex; auto|]. exists g'. split; auto. split; auto. split; auto. split; [|eapply insert_sym; eauto].
  intros v. rewrite O. destruct (v =? h); auto. unfold spliced, outs. rewrite Ex. rewrite firstn_all, skipn_all. auto.
Qed.

Lemma push_spec g x : v_out x = [] -> v_in x = [] -> sym g ->
  length (g ++ [x]) = S (length g) /\ (forall v, v < length g -> attrs (g ++ [x]) v = attrs g v) /\ attrs (g ++ [x]) (length g) = Some (attr x) /\ (forall v, outs (g ++ [x]) v = outs g v) /\ sym (g ++ [x]).
Proof.
  intros HO HI S. assert (L : forall v, v < length g -> nth_error (g ++ [x]) v = nth_error g v) by (intros; apply nth_error_app1; auto).
  assert (M : nth_error (g ++ [x]) (length g) = Some x) by (rewrite nth_error_app2, Nat.sub_diag by auto; auto).
  assert (NN : forall v, length g < v -> nth_error (g ++ [x]) v = None) by (intros; apply nth_error_None; rewrite app_length; simpl; lia).
  assert (N0 : forall v, length g <= v -> nth_error g v = None) by (intros; apply nth_error_None; auto).
  assert (O : forall v, outs (g ++ [x]) v = outs g v).
  { intros v. unfold outs. destruct (Nat.lt_trichotomy v (length g)) as [H|[->|H]]; [rewrite L; auto|rewrite M, N0; auto|rewrite NN, N0 by lia; auto]. }
  assert (I : forall v, ins (g ++ [x]) v = ins g v).
  { intros v. unfold ins. destruct (Nat.lt_trichotomy v (length g)) as [H|[->|H]]; [rewrite L; auto|rewrite M, N0; auto|rewrite NN, N0 by lia; auto]. }
  split; [rewrite app_length; simpl; lia|]. split; [intros v Hv; unfold attrs; rewrite L; auto|]. split; [unfold attrs; rewrite M; auto|]. split; auto. intros h u. rewrite O, I. apply S.
Qed.

Lemma reach_mono g g' : (forall v c, In c (outs g v) -> In c (outs g' v)) -> forall v, reach g v -> reach g' v.
Proof. intros H v R. induction R as [|v c R IH E]; [constructor|]. econstructor; eauto. apply H. auto. Qed.

Lemma sstate_eqb_spec a b : sstate_eqb a b = true <-> a = b.
Proof.
  unfold sstate_eqb. destruct a as [x l], b as [y k]. cbn [fst snd]. rewrite andb_true_iff, N.eqb_eq. destruct (list_eq_dec Nat.eq_dec l k) as [->|Hn]; split; try congruence; intuition congruence.
Qed.

Lemma find_in m k s : find_state m k = Some s -> In (k, s) m.
Proof.
  induction m as [|[k' s'] m IH]; simpl; [discriminate|]. destruct (sstate_eqb k k') eqn:E; [apply sstate_eqb_spec in E; intros [= <-]; subst; auto|auto].
Qed.
Lemma in_find m k s : NoDup (map fst m) -> In (k, s) m -> find_state m k = Some s.
Proof.
  induction m as [|[k' s'] m IH]; simpl; [intros _ []|]. intros N [[= -> ->]|Hi].
  - destruct (sstate_eqb k k) eqn:E; auto. assert (X : sstate_eqb k k = true) by (apply sstate_eqb_spec; auto). congruence.
  - inversion N as [|? ? N1 N2]; subst. destruct (sstate_eqb k k') eqn:E; auto. apply sstate_eqb_spec in E. subst k'. exfalso. apply N1. apply in_map_iff. exists (k, s). auto.
Qed.
Lemma find_none m k : find_state m k = None -> ~ In k (map fst m).
Proof.
  induction m as [|[k' s'] m IH]; simpl; [tauto|]. destruct (sstate_eqb k k') eqn:E; [discriminate|]. intros H [->|Hi]; [|apply IH; auto].
  assert (X : sstate_eqb k k = true) by (apply sstate_eqb_spec; auto). congruence.
Qed.

Lemma Forall2_impl {A B} (R Q : A -> B -> Prop) l l' : (forall a b, R a b -> Q a b) -> Forall2 R l l' -> Forall2 Q l l'.
Proof. intros H. induction 1; constructor; auto. Qed.

Lemma filter_rev {A} (p : A -> bool) l : filter p (rev l) = rev (filter p l).
Proof. induction l as [|a l IH]; simpl; auto. rewrite filter_app, IH. simpl. destruct (p a); simpl; auto. apply app_nil_r. Qed.

Definition images (o : list (option nat)) : list nat := flat_map (fun x => match x with Some v => [v] | None => [] end) o.

Lemma images_in o v : In v (images o) <-> exists n, nth_error o n = Some (Some v).
Proof.
  unfold images. rewrite in_flat_map. split.
  - intros (x & Hx & Hv). destruct x as [u|]; [|destruct Hv]. destruct Hv as [->|[]]. apply In_nth_error in Hx as (n & Hn). eauto.
  - intros (n & Hn). exists (Some v). split; [eapply nth_error_In; eauto|left; auto].
Qed.
Lemma images_upd : forall o n v, nth_error o n = Some None -> Permutation (images (upd o n (Some v))) (v :: images o).
Proof.
  induction o as [|x o IH]; intros [|n] v H; try discriminate.
  - injection H as ->. simpl. auto.
  - specialize (IH n v H). change (upd (x :: o) (S n) (Some v)) with (x :: upd o n (Some v)). unfold images in *. cbn [flat_map]. rewrite IH. destruct x; simpl; auto. apply perm_swap.
Qed.
Lemma images_length o : length (images o) <= length o.
Proof. unfold images. induction o as [|[v|] o IH]; simpl; lia. Qed.
Lemma images_none o n : nth_error o n = Some None -> length (images o) < length o.
Proof. unfold images. revert n. induction o as [|[v|] o IH]; intros [|n] H; try discriminate; simpl in *; try (specialize (IH n H); lia). pose proof (images_length o). unfold images in *. lia. Qed.

Section Subset.
Variable src : nfa.
Hypothesis F : fsm_ok src.

Definition root_key : sstate := (0%N, [0]).

(** The vertices of a subset state are entered on all bytes of its set. *)
Definition key_ok (k : sstate) : Prop :=
  uniform src (snd k) /\ NoDup (snd k) /\ (forall v, In v (snd k) -> v < length src) /\
  (k = root_key \/ (set_ok (fst k) /\ forall v, In v (snd k) -> v <> 0 /\ forall b, N.testbit (fst k) b = true -> N.testbit (bts src v) b = true)).

Definition key_attr (k : sstate) := ((if (fst k =? 0)%N then None else Some (getSmallest (fst k))), mat src (hd 0 (snd k)), lbl src (hd 0 (snd k))).

Record sinv (d : dfa) : Prop := {
  si_sym : sym (d_dst d);
  si_perm : Permutation (map snd (d_map d) ++ images (d_orig d)) (seq 0 (length (d_dst d)));
  si_keys : NoDup (map fst (d_map d));
  si_key : forall k s, In (k, s) (d_map d) -> key_ok k /\ attrs (d_dst d) s = Some (key_attr k);
  si_root : In (root_key, 0) (d_map d);
  si_nz : forall v c, In c (outs (d_dst d) v) -> c <> 0;
  si_reach : forall v, v < length (d_dst d) -> reach (d_dst d) v;
  si_len : length (d_orig d) = length src;
  si_orig : forall n v, nth_error (d_orig d) n = Some (Some v) -> n <> 0
}.

Record ext (d d' : dfa) : Prop := {
  ex_find : forall k s, find_state (d_map d) k = Some s -> find_state (d_map d') k = Some s;
  ex_orig : forall n v, nth_error (d_orig d) n = Some (Some v) -> nth_error (d_orig d') n = Some (Some v);
  ex_len : length (d_dst d) <= length (d_dst d');
  ex_attrs : forall v, v < length (d_dst d) -> attrs (d_dst d') v = attrs (d_dst d) v
}.

Lemma ext_refl d : ext d d.
Proof. split; auto. Qed.
Lemma ext_trans a b c : ext a b -> ext b c -> ext a c.
Proof. intros [A1 A2 A3 A4] [B1 B2 B3 B4]. split; auto; [lia|]. intros v Hv. rewrite B4 by lia. auto. Qed.

Lemma key_state d k s : sinv d -> In (k, s) (d_map d) -> s < length (d_dst d).
Proof.
  intros I H. assert (X : In s (seq 0 (length (d_dst d)))); [|apply in_seq in X; lia].
  eapply Permutation_in; [apply (si_perm _ I)|]. apply in_app_iff. left. apply in_map_iff. exists (k, s). auto.
Qed.
Lemma orig_state d n v : sinv d -> nth_error (d_orig d) n = Some (Some v) -> v < length (d_dst d) /\ n < length src /\ v <> 0 /\ forall k s, In (k, s) (d_map d) -> s <> v.
Proof.
  intros I H. assert (V : In v (images (d_orig d))) by (apply images_in; eauto).
  assert (D : forall k s, In (k, s) (d_map d) -> s <> v).
  { intros k s Hk ->. assert (ND : NoDup (map snd (d_map d) ++ images (d_orig d))) by (eapply Permutation_NoDup; [symmetry; apply (si_perm _ I)|apply seq_NoDup]).
    assert (A : In v (map snd (d_map d))) by (apply in_map_iff; exists (k, v); auto). revert ND A V. generalize (map snd (d_map d)) (images (d_orig d)). clear.
    induction l as [|x l IH]; intros l0 N A V; [destruct A|]. simpl in N. inversion N as [|? ? N1 N2]; subst. destruct A as [->|A]; [apply N1; apply in_app_iff; auto|eauto]. }
  split; [|split; [|split; auto]].
  - assert (X : In v (seq 0 (length (d_dst d)))); [|apply in_seq in X; lia]. eapply Permutation_in; [apply (si_perm _ I)|]. apply in_app_iff. auto.
  - rewrite <- (si_len _ I). apply nth_error_Some. congruence.
  - intros ->. apply (D _ _ (si_root _ I)). auto.
Qed.
Lemma key_inj d k k' s : sinv d -> In (k, s) (d_map d) -> In (k', s) (d_map d) -> k = k'.
Proof.
  intros I H H'. assert (ND : NoDup (map snd (d_map d) ++ images (d_orig d))) by (eapply Permutation_NoDup; [symmetry; apply (si_perm _ I)|apply seq_NoDup]).
  revert ND H H'. generalize (images (d_orig d)). induction (d_map d) as [|[a b] m IH]; intros l N H H'; [destruct H|]. simpl in N. inversion N as [|? ? N1 N2]; subst.
  assert (X : forall x, In (x, b) m -> False) by (intros x Hx; apply N1; apply in_app_iff; left; apply in_map_iff; exists (x, b); auto).
  destruct H as [H|H], H' as [H'|H']; [congruence| | |eauto]; exfalso; [injection H as -> ->|injection H' as -> ->]; eauto.
Qed.
Lemma orig_inj d n n' v : sinv d -> nth_error (d_orig d) n = Some (Some v) -> nth_error (d_orig d) n' = Some (Some v) -> n = n'.
Proof.
  intros I. assert (ND : NoDup (map snd (d_map d) ++ images (d_orig d))) by (eapply Permutation_NoDup; [symmetry; apply (si_perm _ I)|apply seq_NoDup]).
  assert (N2 : NoDup (images (d_orig d))) by (revert ND; generalize (map snd (d_map d)); clear; induction l as [|x l IH]; auto; simpl; intros N; inversion N; auto).
  revert n n' N2. clear. induction (d_orig d) as [|x o IH]; intros [|n] [|n'] N H H'; try discriminate; auto; simpl in *.
  - injection H as ->. simpl in N. inversion N as [|? ? N1 N2]; subst. exfalso. apply N1. apply images_in. eauto.
  - injection H' as ->. simpl in N. inversion N as [|? ? N1 N2]; subst. exfalso. apply N1. apply images_in. eauto.
  - f_equal. apply IH; auto. destruct x; simpl in N; auto. inversion N; auto.
Qed.
Lemma sort_state d v : sinv d -> v < length (d_dst d) -> (exists k, In (k, v) (d_map d)) \/ exists n, nth_error (d_orig d) n = Some (Some v).
Proof.
  intros I H. assert (X : In v (map snd (d_map d) ++ images (d_orig d))) by (eapply Permutation_in; [symmetry; apply (si_perm _ I)|apply in_seq; lia]).
  apply in_app_iff in X as [X|X]; [left; apply in_map_iff in X as ([k s] & E & Hi); simpl in E; subst; eauto|right; apply images_in; auto].
Qed.

(** ** One edge to a subset state *)
Lemma make_one d dh bs l depth : sinv d -> dh < length (d_dst d) -> key_ok (bs, l) -> bs <> 0%N ->
  exists d' dt new, makeDestinationState src d dh bs l depth = Ok d' /\ sinv d' /\ ext d d' /\ d_orig d' = d_orig d /\ find_state (d_map d') (bs, l) = Some dt /\
    (forall v, outs (d_dst d') v = if v =? dh then outs (d_dst d) dh ++ [dt] else outs (d_dst d) v) /\
    d_map d' = new ++ d_map d /\ d_stack d' = map (fun p => (fst p, depth)) new ++ d_stack d /\ length (d_dst d') = length new + length (d_dst d) /\
    (forall k s, In (k, s) new -> k = (bs, l) /\ s = length (d_dst d)).
Proof.
  intros I HD KO B0. unfold makeDestinationState. destruct (find_state (d_map d) (bs, l)) as [dt|] eqn:Ef; cbn [bind].
  - pose proof (find_in _ _ _ Ef) as Hi. pose proof (key_state d _ _ I Hi) as DL.
    destruct (addEdge_spec (d_dst d) dh dt HD DL (si_sym _ I)) as (g & -> & L & A & O & S). cbn [bind].
    exists (mkD g (d_map d) (d_stack d) (d_orig d)), dt, []. split; auto. cbn [d_dst d_map d_stack d_orig].
    split; [|split; [|do 6 (split; [auto|]); intros k s []]].
    + destruct I as [I1 I2 I3 I4 I5 I6 I7 I8 I9]. split; cbn [d_dst d_map d_stack d_orig]; auto.
      * rewrite L. auto.
      * intros k s Hk. rewrite A. auto.
      * intros v c. rewrite O. destruct (v =? dh); [|apply I6]. rewrite in_app_iff. simpl. intros [H|[<-|[]]]; [eapply I6; eauto|].
        intros ->. assert (E : (bs, l) = root_key) by (eapply key_inj; [split|apply Hi|]; eauto). injection E as E _. auto.
      * rewrite L. intros v Hv. apply (reach_mono (d_dst d)); auto. intros u c Hc. rewrite O. destruct (Nat.eqb_spec u dh) as [->|]; auto. apply in_app_iff. auto.
    + split; cbn [d_dst d_map d_stack d_orig]; auto. rewrite L. auto.
  - destruct KO as (U & ND & HV & KX) eqn:EKO. clear EKO. destruct l as [|f l'] eqn:El; [exfalso; destruct U as [(m & E & _)|(E & _)]; simpl in E; congruence|]. rewrite <- El in *.
    assert (Gf : get l 0 = Ok f) by (rewrite El; reflexivity). rewrite Gf. cbn [bind]. destruct (nth_lt src f) as (x & Ex); [apply HV; rewrite El; left; auto|].
    unfold get. rewrite Ex. cbn [bind]. set (vx := mkV _ _ _ [] []). destruct (push_spec (d_dst d) vx eq_refl eq_refl (si_sym _ I)) as (L0 & A0 & A0' & O0 & S0).
    destruct (addEdge_spec (d_dst d ++ [vx]) dh (length (d_dst d))) as (g & Eg & L & A & O & S); [lia|lia|auto|]. cbn [d_dst d_map d_stack d_orig]. rewrite Eg. cbn [bind].
    set (dt := length (d_dst d)) in *. exists (mkD g (((bs, l), dt) :: d_map d) (((bs, l), depth) :: d_stack d) (d_orig d)), dt, [((bs, l), dt)]. split; auto. cbn [d_dst d_map d_stack d_orig].
    assert (AT : attr vx = key_attr (bs, l)).
    { unfold vx, attr, key_attr. cbn [v_trans v_match v_label fst snd]. destruct (N.eqb_spec bs 0); [congruence|]. rewrite El. cbn [hd]. unfold mat, lbl. rewrite Ex.
      f_equal. pose proof (fk_label _ F f x Ex) as Q. destruct (v_match x); auto. destruct (N.eq_dec (v_label x) NOLABEL) as [E|E]; auto. exfalso. destruct Q as (_ & Q). specialize (Q E). discriminate. }
    assert (NK : ~ In (bs, l) (map fst (d_map d))) by (apply find_none; auto).
    assert (FN : forall k s, find_state (d_map d) k = Some s -> find_state (((bs, l), dt) :: d_map d) k = Some s).
    { intros k s Hk. cbn [find_state]. destruct (sstate_eqb k (bs, l)) eqn:E; auto. apply sstate_eqb_spec in E. congruence. }
    assert (OO : forall v, outs g v = if v =? dh then outs (d_dst d) dh ++ [dt] else outs (d_dst d) v) by (intros v; rewrite O, !O0; auto).
    assert (DT0 : dt <> 0) by (pose proof (key_state d _ _ I (si_root _ I)); unfold dt; lia).
    assert (RM : forall v, reach (d_dst d) v -> reach g v).
    { apply reach_mono. intros u c Hc. rewrite OO. destruct (Nat.eqb_spec u dh) as [->|]; auto. apply in_app_iff. auto. }
    split; [|split; [|split; [auto|split; [|split; [auto|split; [auto|split; [auto|split; [|intros k s [[= <- <-]|[]]; auto]]]]]]]].
    + destruct I as [I1 I2 I3 I4 I5 I6 I7 I8 I9]. split; cbn [d_dst d_map d_stack d_orig]; auto.
      * rewrite L, L0. fold dt. rewrite seq_S, Nat.add_0_l. cbn [map snd app]. rewrite I2. apply Permutation_cons_append.
      * cbn [map fst]. constructor; auto.
      * intros k s [[= <- <-]|Hk].
        -- split; [split; [auto|split; [auto|split; auto]]|]. rewrite A, A0', AT. auto.
        -- destruct (I4 k s Hk) as (K1 & K2). split; auto. rewrite A, A0; auto. eapply (key_state d k s); [split|]; eauto.
      * right. auto.
      * intros v c. rewrite OO. destruct (v =? dh); [|apply I6]. rewrite in_app_iff. simpl. intros [H|[<-|[]]]; [eapply I6; eauto|auto].
      * rewrite L, L0. intros v Hv. destruct (Nat.eq_dec v dt) as [->|Hn]; [|apply RM, I7; unfold dt in *; lia].
        econstructor; [apply RM, I7; exact HD|]. unfold edge. rewrite OO, Nat.eqb_refl. apply in_app_iff. right. left. auto.
    + split; cbn [d_dst d_map d_stack d_orig]; auto; [lia|]. intros v Hv. rewrite A, A0; auto.
    + cbn [find_state]. destruct (sstate_eqb (bs, l) (bs, l)) eqn:E; auto. assert (X : sstate_eqb (bs, l) (bs, l) = true) by (apply sstate_eqb_spec; auto). congruence.
    + cbn [length]. rewrite L, L0. auto.
Qed.

Lemma make_all depth : forall l d dh, sinv d -> dh < length (d_dst d) -> (forall k, In k l -> key_ok k /\ fst k <> 0%N) ->
  exists d' cs new, make_states src d dh depth l = Ok d' /\ sinv d' /\ ext d d' /\ d_orig d' = d_orig d /\ Forall2 (fun k c => find_state (d_map d') k = Some c) l cs /\
    (forall v, outs (d_dst d') v = if v =? dh then outs (d_dst d) dh ++ cs else outs (d_dst d) v) /\
    d_map d' = new ++ d_map d /\ d_stack d' = map (fun p => (fst p, depth)) new ++ d_stack d /\ length (d_dst d') = length new + length (d_dst d) /\
    (forall k s, In (k, s) new -> length (d_dst d) <= s).
Proof.
  induction l as [|[bs l] r IH]; intros d dh I HD KO; cbn [make_states].
  - exists d, [], []. split; auto. split; auto. split; [apply ext_refl|]. split; auto. split; [constructor|]. split; [intros v; destruct (Nat.eqb_spec v dh) as [->|]; auto; rewrite app_nil_r; auto|]. repeat split; auto. intros k s [].
  - destruct (KO (bs, l)) as (K1 & K2); [left; auto|]. destruct (make_one d dh bs l depth I HD K1 K2) as (d1 & dt & n1 & -> & I1 & X1 & OR1 & F1 & O1 & M1 & S1 & L1 & N1). cbn [bind].
    destruct (IH d1 dh I1) as (d2 & cs & n2 & -> & I2 & X2 & OR2 & F2 & O2 & M2 & S2 & L2 & N2); [destruct X1; lia|intros; apply KO; right; auto|].
    exists d2, (dt :: cs), (n2 ++ n1). split; auto. split; auto. split; [eapply ext_trans; eauto|]. split; [congruence|]. split; [constructor; auto; apply (ex_find _ _ X2); auto|].
    split; [intros v; rewrite O2, !O1, Nat.eqb_refl; destruct (v =? dh); auto; rewrite <- app_assoc; auto|].
    split; [rewrite M2, M1, app_assoc; auto|]. split; [rewrite S2, S1, map_app, app_assoc; auto|]. split; [rewrite app_length; lia|].
    intros k s Hk. apply in_app_iff in Hk as [Hk|Hk]; [apply N2 in Hk; lia|apply N1 in Hk; lia].
Qed.

(** ** One edge to the image of a vertex *)
Lemma link_one d dh n : sinv d -> dh < length (d_dst d) -> n < length src -> n <> 0 ->
  exists d1 v made g, image d n = Ok (d1, v, made) /\ addEdge (d_dst d1) dh v = Ok g /\
    let d' := mkD g (d_map d1) (d_stack d1) (d_orig d1) in
    sinv d' /\ ext d d' /\ d_map d' = d_map d /\ d_stack d' = d_stack d /\ nth_error (d_orig d') n = Some (Some v) /\
    (forall u, outs g u = if u =? dh then outs (d_dst d) dh ++ [v] else outs (d_dst d) u) /\
    (if made then nth_error (d_orig d) n = Some None /\ length g = S (length (d_dst d)) /\ v = length (d_dst d) /\ attrs g v = Some (attr v_new) /\ d_orig d' = upd (d_orig d) n (Some v) /\ length (images (d_orig d')) = S (length (images (d_orig d)))
     else d_orig d' = d_orig d /\ length g = length (d_dst d)).
Proof.
  intros I HD HN N0. assert (HO : n < length (d_orig d)) by (rewrite (si_len _ I); auto). destruct (nth_lt _ _ HO) as (o & Eo). unfold image, get. rewrite Eo. cbn [bind]. destruct o as [v|].
  - exists d, v, false. destruct (orig_state d n v I Eo) as (VL & _ & V0 & _). destruct (addEdge_spec (d_dst d) dh v HD VL (si_sym _ I)) as (g & Eg & L & A & O & S).
    exists g. split; auto. split; auto. cbv zeta. cbn [d_dst d_map d_stack d_orig]. split; [|split; [|repeat split; auto]].
    + destruct I as [I1 I2 I3 I4 I5 I6 I7 I8 I9]. split; cbn [d_dst d_map d_stack d_orig]; auto.
      * rewrite L. auto.
      * intros k s Hk. rewrite A. auto.
      * intros u c. rewrite O. destruct (u =? dh); [|apply I6]. rewrite in_app_iff. simpl. intros [H|[<-|[]]]; [eapply I6; eauto|auto].
      * rewrite L. intros u Hu. apply (reach_mono (d_dst d)); auto. intros a c Hc. rewrite O. destruct (Nat.eqb_spec a dh) as [->|]; auto. apply in_app_iff. auto.
    + split; cbn [d_dst d_map d_stack d_orig]; auto. lia.
  - set (v := length (d_dst d)). destruct (push_spec (d_dst d) v_new eq_refl eq_refl (si_sym _ I)) as (L0 & A0 & A0' & O0 & S0). fold v in L0, A0'.
    destruct (addEdge_spec (d_dst d ++ [v_new]) dh v) as (g & Eg & L & A & O & S); [unfold v in *; lia|lia|auto|].
    exists (mkD (d_dst d ++ [v_new]) (d_map d) (d_stack d) (upd (d_orig d) n (Some v))), v, true, g. split; auto. cbn [d_dst d_map d_stack d_orig]. split; auto. cbv zeta. cbn [d_dst d_map d_stack d_orig].
    assert (OO : forall u, outs g u = if u =? dh then outs (d_dst d) dh ++ [v] else outs (d_dst d) u) by (intros u; rewrite O, !O0; auto).
    assert (V0 : v <> 0) by (pose proof (key_state d _ _ I (si_root _ I)); unfold v; lia).
    assert (RM : forall u, reach (d_dst d) u -> reach g u).
    { apply reach_mono. intros u c Hc. rewrite OO. destruct (Nat.eqb_spec u dh) as [->|]; auto. apply in_app_iff. auto. }
    pose proof (images_upd (d_orig d) n v Eo) as PI.
    split; [|split; [|split; [auto|split; [auto|split; [apply nth_upd_same; auto|split; [auto|]]]]]].
    + destruct I as [I1 I2 I3 I4 I5 I6 I7 I8 I9]. split; cbn [d_dst d_map d_stack d_orig]; auto.
      * rewrite L, L0. rewrite seq_S, Nat.add_0_l. rewrite PI. fold v in I2. rewrite <- I2. rewrite <- Permutation_middle. apply Permutation_cons_append.
      * intros k s Hk. destruct (I4 k s Hk) as (K1 & K2). split; auto. rewrite A, A0; auto. eapply (key_state d k s); [split|]; eauto.
      * intros u c. rewrite OO. destruct (u =? dh); [|apply I6]. rewrite in_app_iff. simpl. intros [H|[<-|[]]]; [eapply I6; eauto|auto].
      * rewrite L, L0. intros u Hu. destruct (Nat.eq_dec u v) as [->|Hn]; [|apply RM, I7; unfold v in *; lia].
        econstructor; [apply RM, I7; exact HD|]. unfold edge. rewrite OO, Nat.eqb_refl. apply in_app_iff. right. left. auto.
      * rewrite upd_length. auto.
      * intros m u. destruct (Nat.eq_dec m n) as [->|Hm]; auto. rewrite nth_upd_other by auto. apply I9.
    + split; cbn [d_dst d_map d_stack d_orig]; auto.
      * intros m u Hm. destruct (Nat.eq_dec m n) as [->|Hn]; [congruence|]. rewrite nth_upd_other by auto. auto.
      * unfold v in *. lia.
      * intros u Hu. rewrite A, A0; auto.
    + split; auto. split; [lia|]. split; auto. split; [rewrite A; auto|]. split; auto. apply Permutation_length in PI. auto.
Qed.

Definition linked (d : dfa) (n c : nat) : Prop := nth_error (d_orig d) n = Some (Some c).

Lemma connect_all : forall ns d dh, sinv d -> dh < length (d_dst d) -> (forall n, In n ns -> n < length src /\ n <> 0) ->
  exists d' cs, connect d dh ns = Ok d' /\ sinv d' /\ ext d d' /\ d_map d' = d_map d /\ d_stack d' = d_stack d /\ Forall2 (linked d') ns cs /\
    (forall u, outs (d_dst d') u = if u =? dh then outs (d_dst d) dh ++ cs else outs (d_dst d) u) /\
    (forall n v, linked d' n v -> linked d n v \/ length (d_dst d) <= v).
Proof.
  induction ns as [|n r IH]; intros d dh I HD HN; cbn [connect].
  - exists d, []. split; auto. split; auto. split; [apply ext_refl|]. split; auto. split; auto. split; [constructor|]. split; [|auto]. intros u. destruct (Nat.eqb_spec u dh) as [->|]; auto. rewrite app_nil_r. auto.
  - destruct (HN n) as (NL & N0); [left; auto|]. destruct (link_one d dh n I HD NL N0) as (d1 & v & made & g & -> & Eg & X). cbn [bind]. rewrite Eg. cbn [bind]. cbv zeta in X.
    set (d2 := mkD g (d_map d1) (d_stack d1) (d_orig d1)) in *. destruct X as (I2 & X2 & M2 & S2 & LK & O2 & MD).
    destruct (IH d2 dh I2) as (d' & cs & -> & I3 & X3 & M3 & S3 & F3 & O3 & N3); [destruct X2; simpl in *; lia|intros; apply HN; right; auto|].
    exists d', (v :: cs). split; auto. split; auto. split; [eapply ext_trans; eauto|]. split; [congruence|]. split; [congruence|]. split; [constructor; auto; apply (ex_orig _ _ X3); auto|]. split.
    + intros u. rewrite O3. change (d_dst d2) with g. rewrite !O2, Nat.eqb_refl. destruct (u =? dh); auto. rewrite <- app_assoc. auto.
    + intros m u Hm. apply N3 in Hm as [Hm|Hm]; [|right; destruct X2; lia]. destruct made.
      * destruct MD as (E0 & _ & -> & _ & EO & _). unfold linked in *. change (d_orig d2) with (d_orig d1) in *. cbn [d_orig] in EO. rewrite EO in Hm.
        destruct (Nat.eq_dec m n) as [->|Hn]; [rewrite nth_upd_same in Hm by (rewrite (si_len _ I); auto); injection Hm as <-; auto|]. rewrite nth_upd_other in Hm by auto. auto.
      * destruct MD as (EO & _). unfold linked in *. cbn [d_orig] in EO. change (d_orig d2) with (d_orig d1) in *. rewrite EO in Hm. auto.
Qed.

(** ** The loop over subset states *)
Variable limit : N.

Definition settled (d : dfa) (k : sstate) (s : nat) : Prop :=
  (exists gs, groups_of src (snd k) gs /\ Forall2 (fun k' c => find_state (d_map d) k' = Some c) gs (outs (d_dst d) s)) \/
  ((limit <= N.of_nat s)%N /\ Forall2 (linked d) (succs src (snd k)) (outs (d_dst d) s)).

Lemma settled_ext d d' k s : ext d d' -> outs (d_dst d') s = outs (d_dst d) s -> settled d k s -> settled d' k s.
Proof.
  intros [X1 X2 _ _] O [(gs & G & FA)|(H & FA)]; [left; exists gs; split; auto|right; split; auto]; rewrite O.
  - eapply Forall2_impl; [|exact FA]. simpl. auto.
  - eapply Forall2_impl; [|exact FA]. intros a b. apply X2.
Qed.

Record linv (d : dfa) : Prop := {
  li_s : sinv d;
  li_stack : NoDup (map fst (d_stack d));
  li_todo : forall k n, In (k, n) (d_stack d) -> exists s, In (k, s) (d_map d) /\ outs (d_dst d) s = [] /\ (n <= N.of_nat s)%N;
  li_done : forall k s, In (k, s) (d_map d) -> In k (map fst (d_stack d)) \/ settled d k s;
  li_new : forall n v, linked d n v -> outs (d_dst d) v = []
}.

Lemma succs_bounds k : key_ok k -> forall n, In n (succs src (snd k)) -> n < length src /\ n <> 0.
Proof. intros _ n Hn. apply in_flat_map in Hn as (h & _ & Hn). destruct (edge_bounds src h n F Hn) as (A & B & _). auto. Qed.

Lemma forall2_len {A B} (R : A -> B -> Prop) l l' : Forall2 R l l' -> length l = length l'.
Proof. induction 1; simpl; auto. Qed.

Lemma groups_keys k gs : key_ok k -> groups_of src (snd k) gs -> forall k', In k' gs -> key_ok k' /\ fst k' <> 0%N.
Proof.
  intros KO G [bs l] Hi. destruct (gr_group _ _ _ G bs l Hi) as (A & B & C & D & E). split; [|apply A].
  split; auto. split; auto. cbn [fst snd]. split; [intros v Hv; apply (succs_bounds k KO); auto|]. right. split; auto. intros v Hv. split; [apply (succs_bounds k KO); auto|]. intros b Hb. eauto.
Qed.

(** All keys there can be *)
Fixpoint all_lists (n len : nat) : list (list nat) :=
  match len with
  | O => [[]]
  | S k => [] :: flat_map (fun l => map (fun v => v :: l) (seq 0 n)) (all_lists n k)
  end.
Definition all_keys : list sstate := list_prod (map N.of_nat (seq 0 (N.to_nat (2 ^ 256)))) (all_lists (length src) (length src)).

Lemma all_lists_in n : forall len l, length l <= len -> (forall v, In v l -> v < n) -> In l (all_lists n len).
Proof.
  induction len as [|k IH]; intros l HL HV; cbn [all_lists]; [destruct l; simpl in HL; [left; auto|lia]|].
  destruct l as [|v l]; [left; auto|right]. apply in_flat_map. exists l. split; [apply IH; [simpl in HL; lia|intros; apply HV; right; auto]|].
  apply in_map_iff. exists v. split; auto. apply in_seq. specialize (HV v (or_introl eq_refl)). lia.
Qed.

Lemma sets_in s : (s < 2 ^ 256)%N -> In s (map N.of_nat (seq 0 (N.to_nat (2 ^ 256)))).
Proof. generalize (2 ^ 256)%N. intros B H. apply in_map_iff. exists (N.to_nat s). split; [lia|]. apply in_seq. lia. Qed.

Lemma key_in k : key_ok k -> In k all_keys.
Proof.
  intros (U & ND & HV & KX). destruct k as [bs l]. cbn [fst snd] in *. unfold all_keys. apply in_prod.
  - apply sets_in. destruct KX as [[= -> _]|((_ & H) & _)]; auto. reflexivity.
  - apply all_lists_in; auto. rewrite <- (seq_length (length src) 0). apply NoDup_incl_length; auto. intros v Hv. apply in_seq. specialize (HV v Hv). lia.
Qed.

Local Opaque all_keys.

Lemma map_bound d : sinv d -> length (d_map d) <= length all_keys.
Proof.
  intros I. rewrite <- (map_length fst). apply NoDup_incl_length; [apply (si_keys _ I)|]. intros k Hk. apply in_map_iff in Hk as ([k' s] & <- & Hi). apply key_in. apply (si_key _ I _ _ Hi).
Qed.

Lemma subset_loop_spec : forall fuel d, linv d -> length all_keys + length (d_stack d) <= length (d_map d) + fuel ->
  exists d', subset_loop fuel src limit d = Ok d' /\ linv d' /\ d_stack d' = [] /\ length (d_orig d') = length (d_orig d).
Proof.
  induction fuel as [|fuel IH]; intros d LI HM.
  - pose proof (map_bound d (li_s _ LI)). destruct (d_stack d) as [|p st] eqn:Es; [|simpl in HM; lia]. exists d. simpl. rewrite Es. auto.
  - cbn [subset_loop]. destruct (d_stack d) as [|[ss n] rest] eqn:Es; [exists d; auto|].
    destruct LI as [I ST TD DN NW]. rewrite Es in *. destruct (TD ss n) as (dh & Hi & O0 & HN); [left; auto|]. rewrite (in_find _ _ _ (si_keys _ I) Hi). cbn [bind].
    pose proof (key_state d _ _ I Hi) as DL. destruct (si_key _ I _ _ Hi) as (KO & _).
    set (d0 := mkD (d_dst d) (d_map d) rest (d_orig d)).
    assert (I0 : sinv d0) by (destruct I; split; auto). assert (X0 : ext d d0) by (split; auto).
    simpl in ST. inversion ST as [|? ? ST1 ST2]; subst.
    assert (OD : forall k s, In (k, s) (d_map d) -> k <> ss -> s <> dh) by (intros k s Hk Hn ->; apply Hn; eapply key_inj; eauto).
    destruct (N.ltb_spec n limit) as [Hlim|Hlim].
    + unfold handleSuccessors. destruct (groups_spec src (snd ss) F) as (gs & -> & G); [apply KO|]. cbn [bind].
      destruct (make_all (n + 1) gs d0 dh I0 DL (groups_keys ss gs KO G)) as (d' & cs & new & -> & I1 & X1 & OR & FA & O1 & M1 & S1 & L1 & N1). cbn [bind].
      cbn [d_dst d_map d_stack d_orig d0] in *.
      assert (ML : length (d_map d') <= length all_keys) by (apply map_bound; auto).
      destruct (IH d') as (d2 & -> & LI2 & E2 & L2).
      * split; auto.
        -- rewrite S1, map_app, map_map. cbn [fst]. assert (K1 := si_keys _ I1). rewrite M1, map_app in K1.
           assert (IN : forall k, In k (map fst rest) -> In k (map fst (d_map d))).
           { intros k Hk. apply in_map_iff in Hk as ([k' q] & <- & Hk). destruct (TD k' q) as (s & Hs & _); [right; auto|]. apply in_map_iff. exists (k', s). auto. }
           revert K1 IN ST2. generalize (map fst rest) (map fst (d_map d)). clear. induction new as [|[a b] new IHn]; intros r m K IN N; simpl in *; auto. inversion K as [|? ? Ka Kb]; subst. constructor; eauto.
           rewrite in_app_iff in *. intros [H|H]; auto.
        -- intros k q Hk. rewrite S1, in_app_iff in Hk. destruct Hk as [Hk|Hk].
           ++ apply in_map_iff in Hk as ([k' s] & [= <- <-] & Hk). exists s. split; [rewrite M1; apply in_app_iff; auto|]. pose proof (N1 _ _ Hk) as Hs. cbn [d_dst d0] in Hs. rewrite O1. destruct (Nat.eqb_spec s dh); [lia|]. split; [apply outs_none; auto|lia].
           ++ destruct (TD k q) as (s & Hs & Os & Hq); [right; auto|]. exists s. split; [rewrite M1; apply in_app_iff; auto|]. split; auto. rewrite O1. destruct (Nat.eqb_spec s dh) as [->|]; auto.
              exfalso. apply ST1. replace ss with k by (apply (key_inj d k ss dh); auto). apply in_map_iff. exists (k, q). auto.
        -- intros k s Hk. rewrite M1, in_app_iff in Hk. rewrite S1, map_app, in_app_iff, map_map. cbn [fst]. destruct Hk as [Hk|Hk]; [left; left; apply in_map_iff; exists (k, s); auto|].
           destruct (DN k s Hk) as [Hd|Hd].
           ++ simpl in Hd. destruct Hd as [<-|Hd]; [|auto]. right. left. exists gs. split; auto. replace s with dh.
              ** rewrite O1, Nat.eqb_refl. cbn [d_dst d0]. rewrite O0. auto.
              ** pose proof (in_find _ _ _ (si_keys _ I) Hk) as Q1. rewrite (in_find _ _ _ (si_keys _ I) Hi) in Q1. congruence.
           ++ destruct (list_eq_dec Nat.eq_dec (snd k) (snd ss)) as [E|E]; [destruct (N.eq_dec (fst k) (fst ss)) as [E'|E']|].
              ** assert (Ek : k = ss) by (destruct k, ss; simpl in *; congruence). subst k. right. left. exists gs. split; auto. replace s with dh.
                 --- rewrite O1, Nat.eqb_refl. cbn [d_dst d0]. rewrite O0. auto.
                 --- pose proof (in_find _ _ _ (si_keys _ I) Hk) as Q1. rewrite (in_find _ _ _ (si_keys _ I) Hi) in Q1. congruence.
              ** right. apply settled_ext with (d := d); auto; [eapply ext_trans; eauto|]. rewrite O1. destruct (Nat.eqb_spec s dh) as [->|]; auto. exfalso. eapply OD; eauto. congruence.
              ** right. apply settled_ext with (d := d); auto; [eapply ext_trans; eauto|]. rewrite O1. destruct (Nat.eqb_spec s dh) as [->|]; auto. exfalso. eapply OD; eauto. congruence.
        -- intros m v Hm. unfold linked in Hm. rewrite OR in Hm. rewrite O1. destruct (orig_state d m v I Hm) as (_ & _ & _ & NS). destruct (Nat.eqb_spec v dh) as [->|]; [exfalso; eapply NS; eauto|]. apply (NW m). auto.
      * rewrite S1, app_length, map_length. rewrite M1, app_length. simpl in HM. lia.
      * exists d2. split; auto. split; auto. split; auto. rewrite L2, OR. auto.
    + unfold connectSubsetStateToOriginal. rewrite (map_res_ok _ (outs src)).
      2:{ intros h Hh. destruct KO as (_ & _ & HV & _). destruct (nth_lt src h (HV h Hh)) as (x & Ex). unfold get, outs. rewrite Ex. auto. }
      cbn [bind]. rewrite <- flat_map_concat_map. fold (succs src (snd ss)).
      destruct (connect_all (succs src (snd ss)) d0 dh I0 DL (succs_bounds ss KO)) as (d' & cs & -> & I1 & X1 & M1 & S1 & FA & O1 & N1). cbn [bind]. cbn [d_dst d_map d_stack d_orig d0] in *.
      destruct (IH d') as (d2 & -> & LI2 & E2 & L2).
      * split; auto.
        -- rewrite S1. auto.
        -- intros k q Hk. rewrite S1 in Hk. destruct (TD k q) as (s & Hs & Os & Hq); [right; auto|]. exists s. rewrite M1. split; auto. split; auto. rewrite O1. destruct (Nat.eqb_spec s dh) as [->|]; auto.
           exfalso. apply ST1. replace ss with k by (apply (key_inj d k ss dh); auto). apply in_map_iff. exists (k, q). auto.
        -- intros k s Hk. rewrite M1 in Hk. rewrite S1. destruct (list_eq_dec Nat.eq_dec (snd k) (snd ss)) as [E|E]; [destruct (N.eq_dec (fst k) (fst ss)) as [E'|E']|].
           ++ assert (Ek : k = ss) by (destruct k, ss; simpl in *; congruence). subst k. right. right. replace s with dh.
              ** split; [lia|]. rewrite O1, Nat.eqb_refl. cbn [d_dst d0]. rewrite O0. auto.
              ** pose proof (in_find _ _ _ (si_keys _ I) Hk) as Q1. rewrite (in_find _ _ _ (si_keys _ I) Hi) in Q1. congruence.
           ++ assert (NE : k <> ss) by congruence. destruct (DN k s Hk) as [[Hd|Hd]|Hd]; [simpl in Hd; congruence|auto|]. right. apply settled_ext with (d := d); auto; [eapply ext_trans; eauto|]. rewrite O1. destruct (Nat.eqb_spec s dh) as [->|]; auto. exfalso. eapply OD; eauto.
           ++ assert (NE : k <> ss) by congruence. destruct (DN k s Hk) as [[Hd|Hd]|Hd]; [simpl in Hd; congruence|auto|]. right. apply settled_ext with (d := d); auto; [eapply ext_trans; eauto|]. rewrite O1. destruct (Nat.eqb_spec s dh) as [->|]; auto. exfalso. eapply OD; eauto.
        -- intros m v Hm. rewrite O1. destruct (orig_state d' m v I1 Hm) as (_ & _ & _ & NS). destruct (Nat.eqb_spec v dh) as [->|]; [exfalso; eapply NS; eauto; rewrite M1; eauto|].
           apply N1 in Hm as [Hm|Hm]; [apply (NW m); auto|apply outs_none; auto].
      * rewrite S1, M1. simpl in HM. lia.
      * exists d2. split; auto. split; auto. split; auto. rewrite L2, (si_len _ I1), (si_len _ I). auto.
Qed.

(** ** The copies of vertices *)
Definition copied (d : dfa) (n v : nat) : Prop := attrs (d_dst d) v = attrs src n /\ Forall2 (linked d) (outs src n) (outs (d_dst d) v).

Record pinv (d : dfa) (next : list nat) : Prop := {
  pi_s : sinv d;
  pi_next : NoDup next;
  pi_todo : forall n, In n next -> exists v, linked d n v /\ outs (d_dst d) v = [];
  pi_done : forall n v, linked d n v -> In n next \/ copied d n v;
  pi_keys : forall k s, In (k, s) (d_map d) -> settled d k s
}.

Lemma copied_ext d d' n v : ext d d' -> v < length (d_dst d) -> outs (d_dst d') v = outs (d_dst d) v -> copied d n v -> copied d' n v.
Proof.
  intros X HV O (A & FA). split; [rewrite (ex_attrs _ _ X); auto|]. rewrite O. eapply Forall2_impl; [|exact FA]. intros a b. apply (ex_orig _ _ X).
Qed.


Lemma complete_all hh : forall ts d next, sinv d -> hh < length (d_dst d) -> (forall n, In n ts -> n < length src /\ n <> 0) ->
  NoDup next -> (forall n, In n next -> exists v, linked d n v) ->
  exists d' cs next', complete_out d hh ts next = Ok (d', next') /\ sinv d' /\ ext d d' /\ d_map d' = d_map d /\ Forall2 (linked d') ts cs /\
    (forall u, outs (d_dst d') u = if u =? hh then outs (d_dst d) hh ++ cs else outs (d_dst d) u) /\
    NoDup next' /\ (forall n, In n next -> In n next') /\ (forall n, In n next' -> exists v, linked d' n v) /\
    (forall n v, linked d' n v -> linked d n v \/ (In n next' /\ length (d_dst d) <= v)) /\ (forall n, In n next' -> In n next \/ nth_error (d_orig d) n = Some None) /\
    length next' + length (images (d_orig d)) = length next + length (images (d_orig d')).
Proof.
  induction ts as [|n r IH]; intros d next I HD HN ND NX; cbn [complete_out].
  - exists d, [], next. split; auto. split; auto. split; [apply ext_refl|]. split; auto. split; [constructor|]. split; [intros u; destruct (Nat.eqb_spec u hh) as [->|]; auto; rewrite app_nil_r; auto|]. repeat split; auto.
  - destruct (HN n) as (NL & N0); [left; auto|]. destruct (link_one d hh n I HD NL N0) as (d1 & v & made & g & -> & Eg & X). cbn [bind]. rewrite Eg. cbn [bind]. cbv zeta in X.
    set (d2 := mkD g (d_map d1) (d_stack d1) (d_orig d1)) in *. destruct X as (I2 & X2 & M2 & S2 & LK & O2 & MD).
    assert (NW : made = true -> ~ In n next). { intros ->. destruct MD as (E0 & _). intros Hn. destruct (NX n Hn) as (u & Hu). unfold linked in Hu. congruence. }
    destruct (IH d2 (if made then n :: next else next) I2) as (d' & cs & next' & -> & I3 & X3 & M3 & F3 & O3 & ND3 & K3 & LX3 & N3 & NN3 & C3).
    + destruct X2; simpl in *; lia.
    + intros; apply HN; right; auto.
    + destruct made; auto. constructor; auto.
    + intros m Hm. assert (Q : m = n \/ In m next) by (destruct made; simpl in Hm; intuition auto). destruct Q as [->|Q]; [exists v; auto|]. destruct (NX m Q) as (u & Hu). exists u. apply (ex_orig _ _ X2). auto.
    + exists d', (v :: cs), next'. split; auto. split; auto. split; [eapply ext_trans; eauto|]. split; [congruence|]. split; [constructor; auto; apply (ex_orig _ _ X3); auto|]. split.
      { intros u. rewrite O3. change (d_dst d2) with g. rewrite !O2, Nat.eqb_refl. destruct (u =? hh); auto. rewrite <- app_assoc. auto. }
      split; auto. split; [intros m Hm; apply K3; destruct made; simpl; auto|]. split; auto. split; [|split].
      * intros m u Hm. apply N3 in Hm as [Hm|(Hm & Hl)]; [|right; split; auto; destruct X2; lia]. destruct made.
        -- destruct MD as (E0 & _ & Ev & _ & EO & _). unfold linked in *. change (d_orig d2) with (d_orig d1) in *. cbn [d_orig] in EO. rewrite EO in Hm.
           destruct (Nat.eq_dec m n) as [->|Hn]; [rewrite nth_upd_same in Hm by (rewrite (si_len _ I); auto); injection Hm as <-; right; split; [apply K3; left; auto|lia]|]. rewrite nth_upd_other in Hm by auto. auto.
        -- destruct MD as (EO & _). unfold linked in *. cbn [d_orig] in EO. change (d_orig d2) with (d_orig d1) in *. rewrite EO in Hm. auto.
      * intros m Hm. apply NN3 in Hm. destruct made.
        -- destruct MD as (E0 & _ & Ev & _ & EO & _). rewrite EO in Hm. destruct Hm as [[<-|Hm]|Hm]; auto.
           destruct (Nat.eq_dec m n) as [->|Hn]; auto. rewrite nth_upd_other in Hm by auto. auto.
        -- destruct MD as (EO & _). rewrite EO in Hm. auto.
      * destruct made.
        -- destruct MD as (_ & _ & _ & _ & _ & EL). change (d_orig {| d_dst := g; d_map := d_map d1; d_stack := d_stack d1; d_orig := d_orig d1 |}) with (d_orig d2) in EL. cbn [length] in C3. lia.
        -- destruct MD as (EO & _). change (d_orig {| d_dst := g; d_map := d_map d1; d_stack := d_stack d1; d_orig := d_orig d1 |}) with (d_orig d2) in EO. rewrite EO in C3. auto.
Qed.

Lemma set_attrs g v x y : nth_error g v = Some y -> v_out x = v_out y -> v_in x = v_in y ->
  length (upd g v x) = length g /\ (forall u, outs (upd g v x) u = outs g u) /\ (forall u, ins (upd g v x) u = ins g u) /\
  (forall u, u <> v -> attrs (upd g v x) u = attrs g u) /\ attrs (upd g v x) v = Some (attr x).
Proof.
  intros Ey HO HI. assert (VL : v < length g) by (apply nth_error_Some; congruence).
  assert (E : forall u, nth_error (upd g v x) u = if u =? v then Some x else nth_error g u).
  { intros u. destruct (Nat.eqb_spec u v) as [->|Hn]; [apply nth_upd_same; auto|apply nth_upd_other; auto]. }
  split; [apply upd_length|]. split; [intros u; unfold outs; rewrite E; destruct (Nat.eqb_spec u v) as [->|]; auto; rewrite Ey; auto|].
  split; [intros u; unfold ins; rewrite E; destruct (Nat.eqb_spec u v) as [->|]; auto; rewrite Ey; auto|].
  split; [intros u Hn; unfold attrs; rewrite E; destruct (Nat.eqb_spec u v); [congruence|auto]|]. unfold attrs. rewrite E, Nat.eqb_refl. auto.
Qed.

Lemma complete_loop_spec : forall fuel d next, pinv d next -> length src + length next <= length (images (d_orig d)) + fuel ->
  exists d', complete_loop fuel src d next = Ok d' /\ pinv d' [].
Proof.
  induction fuel as [|fuel IH]; intros d next PI HM.
  - assert (length (images (d_orig d)) <= length src) by (rewrite <- (si_len _ (pi_s _ _ PI)); apply images_length). destruct next as [|n r]; [|simpl in HM; lia]. exists d. auto.
  - destruct next as [|h rest]; cbn [complete_loop]; [exists d; auto|]. destruct PI as [I ND TD DN KS]. destruct (TD h) as (hh & LK & OH); [left; auto|].
    destruct (orig_state d h hh I LK) as (HL & HS & H0 & HK). unfold get at 1. rewrite LK. cbn [bind]. destruct (nth_lt src h HS) as (x & Ex). unfold get at 1. rewrite Ex. cbn [bind].
    destruct (nth_lt _ _ HL) as (y & Ey). unfold get at 1. rewrite Ey. cbn [bind]. set (xx := mkV (v_trans x) (v_match x) (v_label x) (v_out y) (v_in y)).
    destruct (set_attrs (d_dst d) hh xx y Ey eq_refl eq_refl) as (L0 & O0 & N0 & A0 & A0'). set (g0 := upd (d_dst d) hh xx) in *. set (d0 := mkD g0 (d_map d) (d_stack d) (d_orig d)).
    assert (I0 : sinv d0).
    { destruct I as [I1 I2 I3 I4 I5 I6 I7 I8 I9]. split; cbn [d_dst d_map d_stack d_orig d0]; auto.
      - intros a b. rewrite O0, N0. apply I1.
      - rewrite L0. auto.
      - intros k s Hk. rewrite A0 by (apply (HK k); auto). auto.
      - intros v c. rewrite O0. apply I6.
      - rewrite L0. intros v Hv. apply (reach_mono (d_dst d)); auto. intros a c. rewrite O0. auto. }
    assert (OX : v_out x = outs src h) by (unfold outs; rewrite Ex; auto). rewrite OX.
    inversion ND as [|? ? ND1 ND2]; subst.
    destruct (complete_all hh (outs src h) d0 rest I0) as (d' & cs & next' & E & I1 & X1 & M1 & FA & O1 & ND' & K1 & LX & NL & NN & CN).
    + cbn [d_dst d0]. lia.
    + intros n Hn. destruct (edge_bounds src h n F Hn) as (A & B & _). auto.
    + auto.
    + intros n Hn. destruct (TD n) as (v & Hv & _); [right; auto|]. exists v. auto.
    + rewrite E. cbn [bind]. cbn [d_dst d_map d_stack d_orig d0] in *. apply IH.
      * assert (OE : forall u, u <> hh -> outs (d_dst d') u = outs (d_dst d) u) by (intros u Hu; rewrite O1; destruct (Nat.eqb_spec u hh); [congruence|apply O0]).
        split; auto.
        -- intros n Hn. destruct (LX n Hn) as (v & Hv). exists v. split; auto. assert (n <> h).
           { intros ->. destruct (NN h Hn) as [X|X]; [auto|]. unfold linked in LK. congruence. }
           assert (v <> hh). { intros ->. apply H. eapply orig_inj; [apply I1|apply Hv|]. apply (ex_orig _ _ X1). auto. }
           rewrite OE by auto. destruct (NL n v Hv) as [Hl|(_ & Hl)]; [|apply outs_none; lia].
           destruct (NN n Hn) as [Hr|Hr]; [|unfold linked in Hl; cbn [d_orig d0] in Hl; congruence]. destruct (TD n) as (v' & Hv' & Ov); [right; auto|]. unfold linked in Hl, Hv'. cbn [d_orig d0] in Hl. congruence.
        -- intros n v Hv. destruct (NL n v Hv) as [Hl|(Hl & _)]; [|auto]. unfold linked in Hl. cbn [d_orig d0] in Hl.
           destruct (Nat.eq_dec n h) as [->|Hn].
           ++ right. unfold linked in LK. assert (v = hh) by congruence. subst v. split.
              ** rewrite (ex_attrs _ _ X1) by (cbn [d_dst d0]; lia). cbn [d_dst d0]. rewrite A0'. unfold attrs. rewrite Ex. auto.
              ** rewrite O1, Nat.eqb_refl, O0, OH. auto.
           ++ destruct (DN n v Hl) as [[Hd|Hd]|Hd]; [congruence|left; auto|right].
              assert (v <> hh) by (intros ->; apply Hn; eapply (orig_inj d); eauto). destruct (orig_state d n v I Hl) as (VL & _). destruct Hd as (HA & HF). split.
              ** rewrite (ex_attrs _ _ X1) by (cbn [d_dst d0]; lia). cbn [d_dst d0]. rewrite A0 by auto. auto.
              ** rewrite OE by auto. eapply Forall2_impl; [|exact HF]. intros a b Hab. apply (ex_orig _ _ X1). auto.
        -- intros k s Hk. rewrite M1 in Hk. apply settled_ext with (d := d0); auto.
           ++ rewrite O1. destruct (Nat.eqb_spec s hh) as [->|]; auto. exfalso. eapply HK; eauto.
           ++ specialize (KS k s Hk). destruct KS as [(gs & G & FG)|(HLim & FG)]; [left; exists gs; split; auto; cbn [d_dst d0]; rewrite O0; auto|right; split; auto; cbn [d_dst d0]; rewrite O0; auto].
      * simpl in HM. lia.
Qed.

(** ** The whole *)
Lemma with_image_in o n : In n (with_image o) <-> exists v, nth_error o n = Some (Some v).
Proof.
  unfold with_image. rewrite filter_In, <- in_rev, in_seq. unfold has_image. split.
  - intros (_ & H). destruct (nth_error o n) as [[v|]|]; try discriminate. eauto.
  - intros (v & H). split; [|rewrite H; auto]. assert (n < length o) by (apply nth_error_Some; congruence). lia.
Qed.
Lemma with_image_length o : length (with_image o) = length (images o).
Proof.
  unfold with_image, images. rewrite filter_rev, rev_length.
  assert (X : forall k o, length (filter (fun v => match nth_error o (v - k) with Some (Some _) => true | _ => false end) (seq k (length o))) = length (flat_map (fun x : option nat => match x with Some v => [v] | None => [] end) o)).
  { clear. intros k o. revert k. induction o as [|x o IH]; intros k; auto. cbn [length seq filter flat_map]. rewrite Nat.sub_diag. cbn [nth_error]. rewrite app_length.
    assert (Y : filter (fun v => match nth_error (x :: o) (v - k) with Some (Some _) => true | _ => false end) (seq (S k) (length o)) = filter (fun v => match nth_error o (v - S k) with Some (Some _) => true | _ => false end) (seq (S k) (length o))).
    { apply filter_ext_in. intros v Hv. apply in_seq in Hv. replace (v - k) with (S (v - S k)) by lia. auto. }
    destruct x; cbn [length]; rewrite Y, IH; auto. }
  rewrite <- (X 0 o). f_equal. apply filter_ext. intros v. unfold has_image. rewrite Nat.sub_0_r. auto.
Qed.

Definition subset_fuel : nat := length all_keys + length src.

Theorem subset_built fuel : subset_fuel <= fuel -> exists d, subsetDFA fuel src limit = Ok (d_dst d) /\ pinv d [].
Proof.
  intros HF. unfold subset_fuel in HF. unfold subsetDFA. destruct (fk_root _ F) as (x0 & E0 & T0 & M0 & L0 & IN0). assert (SL : 0 < length src) by (apply nth_error_Some; congruence).
  set (d0 := mkD [v_new] [((0%N, [0]), 0)] [((0%N, [0]), 0%N)] (repeat None (length src))).
  assert (RP : forall n v, nth_error (repeat (@None nat) (length src)) n <> Some (Some v)) by (intros n v H; apply nth_error_In in H; apply repeat_spec in H; discriminate).
  assert (IM : images (repeat None (length src)) = []). { destruct (images _) as [|v r] eqn:Ei; auto. assert (X : In v (images (repeat None (length src)))) by (rewrite Ei; left; auto). apply images_in in X as (n & Hn). exfalso. eapply RP; eauto. }
  assert (OV : forall v, outs [v_new] v = []) by (intros [|[|v]]; reflexivity). assert (IV : forall v, ins [v_new] v = []) by (intros [|[|v]]; reflexivity).
  assert (MR : mat src 0 = false) by (unfold mat; rewrite E0; auto). assert (LR : lbl src 0 = NOLABEL) by (unfold lbl; rewrite E0; auto).
  assert (I0 : sinv d0).
  { split; cbn [d_dst d_map d_stack d_orig d0].
    - intros h u. rewrite OV, IV. auto.
    - rewrite IM. simpl. auto.
    - repeat constructor. simpl. tauto.
    - intros k s [[= <- <-]|[]]. split.
      + split; [right; split; [discriminate|]; intros v [<-|[]]; auto|]. split; [repeat constructor; simpl; tauto|]. split; [intros v [<-|[]]; auto|left; auto].
      + unfold key_attr. cbn [fst snd hd N.eqb]. rewrite MR, LR. reflexivity.
    - left. auto.
    - intros v c. rewrite OV. intros [].
    - intros [|v] Hv; [constructor|simpl in Hv; lia].
    - apply repeat_length.
    - intros n v H. exfalso. eapply RP; eauto. }
  assert (LI0 : linv d0).
  { split; auto; cbn [d_dst d_map d_stack d_orig d0].
    - repeat constructor. simpl. tauto.
    - intros k n [[= <- <-]|[]]. exists 0. split; [left; auto|]. split; auto. lia.
    - intros k s [[= <- <-]|[]]. left. left. auto. }
  destruct (subset_loop_spec fuel d0 LI0) as (d1 & E1 & LI1 & S1 & OL1); [cbn [d_dst d_map d_stack d_orig d0 length]; lia|].
  fold d0. rewrite E1. cbn [bind].
  assert (PI : pinv d1 (with_image (d_orig d1))).
  { destruct LI1 as [A B C D E]. split; auto.
    - unfold with_image. apply NoDup_filter, NoDup_rev, seq_NoDup.
    - intros n Hn. apply with_image_in in Hn as (v & Hv). exists v. split; auto. eapply E; eauto.
    - intros n v Hv. left. apply with_image_in. eauto.
    - intros k s Hk. destruct (D k s Hk) as [X|X]; auto. rewrite S1 in X. destruct X. }
  destruct (complete_loop_spec fuel d1 _ PI) as (d2 & E2 & P2); [rewrite with_image_length; lia|].
  rewrite E2. exists d2. auto.
Qed.
End Subset.
