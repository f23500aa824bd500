(** subsetDFA keeps what is accepted and what is preferred, for every depth. *)
From Coq Require Import Sorting.Permutation.
From Verif Require Import Base NfaModel ByteSetModel VmModel CodegenSpec CodegenLayout CodegenSem Thm_Codegen BuildModel BuildProofs OptModel OptSpec OptPrune OptMergeLang OptMergeBest OptLive OptGroups OptSubset.
Open Scope nat_scope.

(** ** Automata whose match states are the ones with a label *)
Definition match_labelled (g : nfa) : Prop := forall v, mat g v = true <-> lbl g v <> NOLABEL.

Definition step_best (g : nfa) (l : N) (b : N) (w : list N) (pos : N) (c : nat) : option N := if enters g c b then best g l NOLABEL w c (pos + 1) else None.
Definition here (g : nfa) (l : N) (v : nat) (pos : N) : option N := if mat g v && (lbl g v =? l)%N then Some pos else None.

Lemma ml_raw g : match_labelled g -> forall v x, nth_error g v = Some x -> (v_match x = true <-> v_label x <> NOLABEL).
Proof. intros M v x E. specialize (M v). unfold mat, lbl in M. rewrite E in M. auto. Qed.

Lemma best_nil g l lab v pos : match_labelled g -> best g l lab [] v pos = here g l v pos.
Proof.
  intros M. pose proof (M v) as Q. unfold here, mat, lbl in *. cbn [best]. destruct (nth_error g v) as [x|]; auto. destruct (N.eqb_spec (v_label x) NOLABEL) as [E|E]; auto.
  destruct (v_match x); auto. exfalso. apply Q; auto.
Qed.
Lemma best_cons g l lab b w v pos : match_labelled g -> best g l lab (b :: w) v pos = match first_some (step_best g l b w pos) (outs g v) with Some e => Some e | None => here g l v pos end.
Proof.
  intros M. pose proof (ml_raw g M) as R. pose proof (M v) as Q. unfold here, mat, lbl, outs in *. cbn [best]. destruct (nth_error g v) as [x|]; auto.
  rewrite (OptPrune.first_some_ext _ (step_best g l b w pos)); [|intros c _; unfold step_best; destruct (enters g c b); auto; apply best_lab; auto].
  destruct (first_some _ _); auto. destruct (N.eqb_spec (v_label x) NOLABEL) as [E|E]; auto. destruct (v_match x); auto. exfalso. apply Q; auto.
Qed.

Lemma accepts_nil g l lab v : match_labelled g -> accepts g l lab [] v <-> mat g v = true /\ lbl g v = l.
Proof.
  intros M. pose proof (M v) as Q. unfold mat, lbl in *. split.
  - intros A. inversion A as [? ? x E Em El|]; subst. rewrite E in *. unfold newlab. destruct (N.eqb_spec (v_label x) NOLABEL) as [X|X]; auto. exfalso. apply Q; auto.
  - intros (Em & El). destruct (nth_error g v) as [x|] eqn:E; [|discriminate]. econstructor; eauto. unfold newlab. destruct (N.eqb_spec (v_label x) NOLABEL) as [X|X]; auto. exfalso. apply Q; auto.
Qed.
Lemma accepts_lab g l : match_labelled g -> forall w lab lab' v, accepts g l lab w v -> accepts g l lab' w v.
Proof.
  intros M. induction w as [|b w IH]; intros lab lab' v A; [rewrite accepts_nil in * by auto; auto|]. inversion A as [|? ? x ? ? c E Hc En Ha]; subst. econstructor; eauto.
Qed.
Lemma accepts_cons g l lab b w v : match_labelled g -> accepts g l lab (b :: w) v <-> exists c, In c (outs g v) /\ enters g c b = true /\ accepts g l NOLABEL w c.
Proof.
  intros M. split.
  - intros A. inversion A as [|? ? x ? ? c E Hc En Ha]; subst. exists c. unfold outs. rewrite E. split; auto. split; auto. eapply accepts_lab; eauto.
  - intros (c & Hc & En & Ha). unfold outs in Hc. destruct (nth_error g v) as [x|] eqn:E; [|destruct Hc]. econstructor; eauto. eapply accepts_lab; eauto.
Qed.

Lemma first_some_forall2 {A B C} (R : A -> B -> Prop) (f : A -> option C) (h : B -> option C) l l' : Forall2 R l l' -> (forall a b, In a l -> R a b -> f a = h b) -> first_some f l = first_some h l'.
Proof. induction 1 as [|a b l l' H _ IH]; intros E; simpl; auto. rewrite (E a b) by (auto; left; auto). destruct (h b); auto. apply IH. intros; apply E; auto. right. auto. Qed.

Lemma first_some_groups {A C} (f : A -> option C) (p : N * list A -> bool) gs :
  first_some (fun q => if p q then first_some f (snd q) else None) gs = first_some f (concat (map snd (filter p gs))).
Proof.
  induction gs as [|q gs IH]; simpl; auto. destruct (p q); simpl; auto. rewrite first_some_app, IH. auto.
Qed.

Lemma Forall2_in_l {A B} (R : A -> B -> Prop) l l' : Forall2 R l l' -> forall a, In a l -> exists b, In b l' /\ R a b.
Proof. induction 1 as [|a b l l' H _ IH]; intros c; simpl; [intros []|]. intros [<-|Hc]; [exists b; auto|]. destruct (IH c Hc) as (x & Hx & Hr). exists x. auto. Qed.

Section Sem.
Variable src : nfa.
Variable limit : N.
Variable d : dfa.
Hypothesis F : fsm_ok src.
Hypothesis P : pinv src limit d [].
Let I := pi_s _ _ _ _ P.
Notation dst := (d_dst d).

Lemma src_ml : match_labelled src.
Proof. intros v. apply match_label. auto. Qed.

Lemma key_at k s : In (k, s) (d_map d) -> mat dst s = mat src (hd 0 (snd k)) /\ lbl dst s = lbl src (hd 0 (snd k)) /\ key_ok src k /\ settled src limit d k s.
Proof.
  intros H. destruct (si_key _ _ I k s H) as (KO & A). split; [|split; [|split; auto]].
  - unfold attrs, mat in *. destruct (nth_error dst s) as [x|]; [|discriminate]. simpl in A. unfold key_attr, attr in A. injection A as _ A _. auto.
  - unfold attrs, lbl in *. destruct (nth_error dst s) as [x|]; [|discriminate]. simpl in A. unfold key_attr, attr in A. injection A as _ _ A. auto.
  - apply (pi_keys _ _ _ _ P). auto.
Qed.
Lemma copy_at n v : linked d n v -> copied src d n v /\ mat dst v = mat src n /\ lbl dst v = lbl src n.
Proof. intros H. destruct (pi_done _ _ _ _ P n v H) as [[]|C]. split; auto. destruct C as (A & _).
  unfold attrs, mat, lbl in *. destruct (nth_error dst v), (nth_error src n); try discriminate A; auto. simpl in A. injection A as _ A1 A2. auto. Qed.

Lemma uniform_mat l : uniform src l -> (mat src (hd 0 l) = true /\ l = [hd 0 l]) \/ (mat src (hd 0 l) = false /\ l <> [] /\ forall v, In v l -> mat src v = false).
Proof. intros [(m & -> & H)|(H & Q)]; [left; auto|right]. split; auto. destruct l; [congruence|]. apply Q. left. auto. Qed.

Lemma dst_ml : match_labelled dst.
Proof.
  intros v. destruct (Nat.lt_ge_cases v (length dst)) as [H|H].
  - destruct (sort_state src d v I H) as [(k & Hk)|(n & Hn)].
    + destruct (key_at k v Hk) as (-> & -> & _). apply src_ml.
    + destruct (copy_at n v Hn) as (_ & -> & ->). apply src_ml.
  - unfold mat, lbl. apply nth_error_None in H. rewrite H. split; [discriminate|congruence].
Qed.

Lemma group_state k gs k' c : key_ok src k -> groups_of src (snd k) gs -> In k' gs -> find_state (d_map d) k' = Some c -> In (k', c) (d_map d) /\ set_ok (fst k') /\ forall b, enters dst c b = N.testbit (fst k') b.
Proof.
  intros KO G Hi Hf. apply find_in in Hf. destruct (groups_keys src F k gs KO G k' Hi) as (KO' & B0). destruct k' as [bs l]. destruct (gr_group _ _ _ G bs l Hi) as (SO & _).
  split; auto. split; auto. intros b. destruct (si_key _ _ I _ _ Hf) as (_ & A). unfold attrs, enters in *. destruct (nth_error dst c) as [x|]; [|discriminate].
  simpl in A. unfold key_attr, attr in A. cbn [fst snd] in *. destruct (N.eqb_spec bs 0); [congruence|]. injection A as -> _ _. rewrite allowed_bytes by (apply getSmallest_trans_ok; auto). apply getSmallest_bits. auto.
Qed.

Lemma copy_enters n v b : linked d n v -> enters dst v b = enters src n b.
Proof. intros H. destruct (copy_at n v H) as ((A & _) & _).
  unfold attrs, enters in *. destruct (nth_error dst v), (nth_error src n); try discriminate A; auto. simpl in A. injection A as -> _ _. auto. Qed.

Lemma succ_nz (k : sstate) n : In n (succs src (snd k)) -> n <> 0 /\ n < length src.
Proof. intros H. apply in_flat_map in H as (h & _ & H). destruct (edge_bounds src h n F H) as (A & B & _). auto. Qed.

(** ** What is preferred *)
Lemma best_subset l : forall w,
  (forall k s lab pos, In (k, s) (d_map d) -> best dst l lab w s pos = first_some (fun v => best src l NOLABEL w v pos) (snd k)) /\
  (forall n v lab pos, linked d n v -> best dst l lab w v pos = best src l NOLABEL w n pos).
Proof.
  induction w as [|b w (IHk & IHc)]; split.
  - intros k s lab pos H. destruct (key_at k s H) as (M & L & (U & _) & _). rewrite best_nil by apply dst_ml. unfold here. rewrite M, L.
    destruct (uniform_mat _ U) as [(E & El)|(E & Hn & E0)].
    + rewrite El at 3. cbn [first_some]. rewrite best_nil by apply src_ml. unfold here. destruct (mat src _ && _); auto.
    + rewrite E. symmetry. apply first_some_none. intros v Hv. rewrite best_nil by apply src_ml. unfold here. rewrite E0; auto.
  - intros n v lab pos H. destruct (copy_at n v H) as (_ & M & L). rewrite !best_nil by (apply dst_ml || apply src_ml). unfold here. rewrite M, L. auto.
  - intros k s lab pos H. destruct (key_at k s H) as (M & L & KO & ST). rewrite best_cons by apply dst_ml.
    assert (X : first_some (step_best dst l b w pos) (outs dst s) = first_some (step_best src l b w pos) (succs src (snd k))).
    { destruct ST as [(gs & G & FA)|(_ & FA)].
      - rewrite <- (first_some_forall2 _ (fun q => if N.testbit (fst q) b then first_some (fun v => best src l NOLABEL w v (pos + 1)) (snd q) else None) _ _ _ FA).
        + rewrite (first_some_groups (fun v => best src l NOLABEL w v (pos + 1)%N) (fun q => N.testbit (fst q) b)). rewrite (gr_byte _ _ _ G b). rewrite nodups_first by (intros ? []). unfold on_byte.
          rewrite <- (OptMergeLang.first_some_filter _ _ _ (fun a _ _ => eq_refl)) || idtac.
          assert (Y : forall ns, (forall n, In n ns -> n <> 0) -> first_some (fun v => best src l NOLABEL w v (pos + 1)%N) (filter (fun v => N.testbit (bts src v) b) ns) = first_some (step_best src l b w pos) ns).
          { induction ns as [|n ns IH]; intros HN; simpl; auto. unfold step_best at 1. rewrite enters_bts by (auto; apply HN; left; auto). destruct (N.testbit (bts src n) b); simpl; rewrite IH by (intros; apply HN; right; auto); auto. }
          apply Y. intros n Hn. apply (succ_nz k). auto.
        + intros k' c Hk' Hf. destruct (group_state k gs k' c KO G Hk' Hf) as (Hm & _ & En). unfold step_best. rewrite En. destruct (N.testbit (fst k') b); auto. symmetry. apply IHk. auto.
      - symmetry. apply (first_some_forall2 _ _ _ _ _ FA). intros n c _ Hl. unfold step_best. rewrite (copy_enters n c b Hl). destruct (enters src n b); auto. symmetry. apply IHc. auto. }
    rewrite X. unfold succs. rewrite first_some_flat. destruct KO as (U & _). destruct (uniform_mat _ U) as [(E & El)|(E & Hn & E0)].
    + rewrite El. cbn [first_some hd]. rewrite best_cons by apply src_ml. unfold here. rewrite M, L. destruct (first_some _ (outs src _)); auto. destruct (mat src _ && _); auto.
    + unfold here. rewrite M, E. cbn [andb]. rewrite (OptPrune.first_some_ext (fun v => best src l NOLABEL (b :: w) v pos) (fun v => first_some (step_best src l b w pos) (outs src v))).
      * destruct (first_some _ (snd k)); auto.
      * intros v Hv. rewrite best_cons by apply src_ml. unfold here. rewrite E0 by auto. cbn [andb]. destruct (first_some _ (outs src v)); auto.
  - intros n v lab pos H. destruct (copy_at n v H) as ((_ & FA) & M & L). rewrite !best_cons by (apply dst_ml || apply src_ml). unfold here. rewrite M, L.
    replace (first_some (step_best dst l b w pos) (outs dst v)) with (first_some (step_best src l b w pos) (outs src n)); auto.
    apply (first_some_forall2 _ _ _ _ _ FA). intros m c _ Hl. unfold step_best. rewrite (copy_enters m c b Hl). destruct (enters src m b); auto. symmetry. apply IHc. auto.
Qed.

(** ** What is accepted *)
Lemma child_byte k s n b : In (k, s) (d_map d) -> In n (succs src (snd k)) -> enters src n b = true ->
  exists c, In c (outs dst s) /\ enters dst c b = true /\ ((exists k', In (k', c) (d_map d) /\ In n (snd k')) \/ linked d n c).
Proof.
  intros H Hn En. destruct (key_at k s H) as (_ & _ & KO & ST). destruct ST as [(gs & G & FA)|(_ & FA)].
  - assert (X : In n (concat (map snd (filter (fun q => N.testbit (fst q) b) gs)))).
    { rewrite (gr_byte _ _ _ G). apply nodups_in. split; [|tauto]. apply filter_In. split; auto. rewrite <- enters_bts; auto. apply (succ_nz k n Hn). }
    apply in_concat in X as (l & Hl & Hx). apply in_map_iff in Hl as (k' & <- & Hk). apply filter_In in Hk as (Hk & Tb). destruct (Forall2_in_l _ _ _ FA k' Hk) as (c & Hc & Hf).
    destruct (group_state k gs k' c KO G Hk Hf) as (Hm & _ & E'). exists c. split; auto. split; [rewrite E'; auto|]. left. exists k'. auto.
  - destruct (Forall2_in_l _ _ _ FA n Hn) as (c & Hc & Hl). exists c. split; auto. split; auto. rewrite (copy_enters n c b Hl). auto.
Qed.

Lemma child_back k s c : In (k, s) (d_map d) -> In c (outs dst s) ->
  (exists k', In (k', c) (d_map d) /\ forall n, In n (snd k') -> In n (succs src (snd k)) /\ forall b, enters dst c b = true -> enters src n b = true) \/ (exists n, linked d n c /\ In n (succs src (snd k))).
Proof.
  intros H Hc. destruct (key_at k s H) as (_ & _ & KO & ST). destruct ST as [(gs & G & FA)|(_ & FA)].
  - left. destruct (Forall2_in_r _ _ _ FA c Hc) as (k' & Hk & Hf). destruct (group_state k gs k' c KO G Hk Hf) as (Hm & _ & E'). exists k'. split; auto. destruct k' as [bs l]. destruct (gr_group _ _ _ G bs l Hk) as (_ & _ & _ & S & B).
    intros n Hn. split; auto. intros b Hb. rewrite E' in Hb. rewrite enters_bts by (auto; apply (succ_nz k n); auto). eapply B; eauto.
  - right. destruct (Forall2_in_r _ _ _ FA c Hc) as (n & Hn & Hl). eauto.
Qed.

Lemma accepts_subset l : forall w,
  (forall k s lab, In (k, s) (d_map d) -> accepts dst l lab w s <-> exists v, In v (snd k) /\ accepts src l NOLABEL w v) /\
  (forall n v lab, linked d n v -> accepts dst l lab w v <-> accepts src l NOLABEL w n).
Proof.
  induction w as [|b w (IHk & IHc)]; split.
  - intros k s lab H. destruct (key_at k s H) as (M & L & (U & _) & _). rewrite accepts_nil by apply dst_ml. rewrite M, L. destruct (uniform_mat _ U) as [(E & El)|(E & Hn & E0)].
    + split.
      * intros (_ & X). exists (hd 0 (snd k)). split; [rewrite El; left; auto|]. apply accepts_nil; [apply src_ml|auto].
      * intros (v & Hv & A). rewrite El in Hv. destruct Hv as [<-|[]]. apply accepts_nil in A; [auto|apply src_ml].
    + split; [intros (X & _); congruence|]. intros (v & Hv & A). apply accepts_nil in A; [|apply src_ml]. rewrite E0 in A by auto. destruct A; discriminate.
  - intros n v lab H. destruct (copy_at n v H) as (_ & M & L). rewrite !accepts_nil by (apply dst_ml || apply src_ml). rewrite M, L. tauto.
  - intros k s lab H. rewrite accepts_cons by apply dst_ml. split.
    + intros (c & Hc & En & A). destruct (child_back k s c H Hc) as [(k' & Hk' & Q)|(n & Hl & Hn)].
      * apply (IHk k' c) in A; auto. destruct A as (v & Hv & A). destruct (Q v Hv) as (S & B). apply in_flat_map in S as (h & Hh & S). exists h. split; auto. apply accepts_cons; [apply src_ml|]. exists v. auto.
      * apply (IHc n c) in A; auto. rewrite (copy_enters n c b Hl) in En. apply in_flat_map in Hn as (h & Hh & S). exists h. split; auto. apply accepts_cons; [apply src_ml|]. exists n. auto.
    + intros (v & Hv & A). apply accepts_cons in A; [|apply src_ml]. destruct A as (n & Hn & En & A). assert (S : In n (succs src (snd k))) by (apply in_flat_map; eauto).
      destruct (child_byte k s n b H S En) as (c & Hc & Ec & [(k' & Hk' & Hn')|Hl]); exists c; split; auto; split; auto; [apply (IHk k' c); eauto|apply (IHc n c); auto].
  - intros n v lab H. destruct (copy_at n v H) as ((_ & FA) & _). rewrite !accepts_cons by (apply dst_ml || apply src_ml). split.
    + intros (c & Hc & En & A). destruct (Forall2_in_r _ _ _ FA c Hc) as (m & Hm & Hl). exists m. split; auto. rewrite (copy_enters m c b Hl) in En. split; auto. apply (IHc m c) in A; auto.
    + intros (m & Hm & En & A). destruct (Forall2_in_l _ _ _ FA m Hm) as (c & Hc & Hl). exists c. split; auto. rewrite (copy_enters m c b Hl). split; auto. apply (IHc m c); auto.
Qed.

(** ** What the passes after it need *)
Lemma enters_some n : n <> 0 -> n < length src -> exists b, enters src n b = true.
Proof.
  intros H0 HL. destruct (state_at src n F H0 HL) as (t & m & l & o & i & E & T). destruct (trans_nonempty t T) as (b & _ & Hb). exists b. unfold enters. rewrite E. auto.
Qed.

Lemma arrives_to l n : arrives src l n -> (forall k s, In (k, s) (d_map d) -> In n (snd k) -> arrives dst l s) /\ (forall v, linked d n v -> arrives dst l v).
Proof.
  induction 1 as [v M L|v c Hc A (IHk & IHc)]; split.
  - intros k s H Hn. destruct (key_at k s H) as (M' & L' & (U & _) & _). destruct (uniform_mat _ U) as [(E & El)|(E & Hn' & E0)]; [|rewrite E0 in M by auto; discriminate].
    rewrite El in Hn. destruct Hn as [Hn|[]]. apply ar_here; [rewrite M'; auto|rewrite L', Hn; auto].
  - intros u H. destruct (copy_at v u H) as (_ & M' & L'). apply ar_here; congruence.
  - intros k s H Hn. assert (S : In c (succs src (snd k))) by (apply in_flat_map; eauto). destruct (succ_nz k c S) as (C0 & CL). destruct (enters_some c C0 CL) as (b & Hb).
    destruct (child_byte k s c b H S Hb) as (u & Hu & _ & [(k' & Hk' & Hn')|Hl]); apply ar_step with u; auto; eauto.
  - intros u H. destruct (copy_at v u H) as ((_ & FA) & _). destruct (Forall2_in_l _ _ _ FA c Hc) as (e & He & Hl). apply ar_step with e; auto.
Qed.

Lemma arrives_from l v : arrives dst l v -> (forall k, In (k, v) (d_map d) -> exists n, In n (snd k) /\ arrives src l n) /\ (forall n, linked d n v -> arrives src l n).
Proof.
  induction 1 as [v M L|v c Hc A (IHk & IHc)]; split.
  - intros k H. destruct (key_at k v H) as (M' & L' & (U & _) & _). destruct (uniform_mat _ U) as [(E & El)|(E & Hn' & E0)]; [|congruence].
    exists (hd 0 (snd k)). split; [rewrite El; left; auto|]. apply ar_here; congruence.
  - intros n H. destruct (copy_at n v H) as (_ & M' & L'). apply ar_here; congruence.
  - intros k H. destruct (child_back k v c H Hc) as [(k' & Hk' & Q)|(n & Hl & Hn)].
    + destruct (IHk k' Hk') as (n & Hn & An). destruct (Q n Hn) as (S & _). apply in_flat_map in S as (h & Hh & S). exists h. split; auto. apply ar_step with n; auto.
    + apply in_flat_map in Hn as (h & Hh & S). exists h. split; auto. apply ar_step with n; auto.
  - intros n H. destruct (copy_at n v H) as ((_ & FA) & _). destruct (Forall2_in_r _ _ _ FA c Hc) as (m & Hm & Hl). apply ar_step with m; auto.
Qed.

Lemma root_only k : In (k, 0) (d_map d) -> k = root_key.
Proof. intros H. eapply key_inj; [apply I|apply H|apply (si_root _ _ I)]. Qed.

Theorem subset_core L : fsm_core src L -> fsm_core dst L.
Proof.
  intros [_ _ LV OW LI]. split.
  - split.
    + pose proof (si_root _ _ I) as R. pose proof (key_state src d _ _ I R) as HL. destruct (nth_lt dst 0 HL) as (x & Ex). exists x. split; auto.
      destruct (key_at _ _ R) as (M & L0 & _). destruct (si_key _ _ I _ _ R) as (_ & A). unfold attrs in A. rewrite Ex in A. simpl in A. unfold attr, key_attr in A. cbn [root_key fst snd hd N.eqb] in A. injection A as A1 A2 A3.
      destruct (fk_root _ F) as (x0 & E0 & T0 & M0 & L00 & _). split; auto. unfold mat, lbl in A2, A3. rewrite E0 in *. split; [congruence|]. split; [congruence|].
      destruct (v_in x) as [|h r] eqn:Ei; auto. exfalso. assert (X : In h (ins dst 0)) by (unfold ins; rewrite Ex, Ei; left; auto). apply (sym_in dst h 0 (si_sym _ _ I)) in X. apply (si_nz _ _ I) in X. auto.
    + intros v x V0 Ex. assert (VL : v < length dst) by (apply nth_error_Some; congruence). destruct (sort_state src d v I VL) as [(k & Hk)|(n & Hn)].
      * destruct (si_key _ _ I _ _ Hk) as ((_ & _ & _ & KX) & A). destruct KX as [->|(SO & _)]; [exfalso; apply V0; pose proof (in_find _ _ _ (si_keys _ _ I) Hk) as Q; rewrite (in_find _ _ _ (si_keys _ _ I) (si_root _ _ I)) in Q; congruence|].
        unfold attrs in A. rewrite Ex in A. simpl in A. unfold attr, key_attr in A. destruct (N.eqb_spec (fst k) 0) as [E|_]; [destruct SO; congruence|]. injection A as A _ _. eexists. split; [exact A|]. apply getSmallest_trans_ok. auto.
      * destruct (copy_at n v Hn) as ((A & _) & _). destruct (orig_state src d n v I Hn) as (_ & NL & _). pose proof (si_orig _ _ I _ _ Hn) as N0. destruct (nth_lt src n NL) as (y & Ey). destruct (fk_state _ F n y N0 Ey) as (t & Et & T).
        unfold attrs in A. rewrite Ex, Ey in A. simpl in A. injection A as A _ _. exists t. split; congruence.
    + intros v x V0 Ex HO. assert (VL : v < length dst) by (apply nth_error_Some; congruence). assert (OV : outs dst v = []) by (unfold outs; rewrite Ex; auto). assert (MV : v_match x = mat dst v) by (unfold mat; rewrite Ex; auto). rewrite MV.
      destruct (sort_state src d v I VL) as [(k & Hk)|(n & Hn)].
      * destruct (key_at k v Hk) as (-> & _ & KO & _). destruct KO as (U & _ & HV & KX). destruct (uniform_mat _ U) as [(E & _)|(E & Hn & E0)]; auto. exfalso.
        destruct (snd k) as [|u r] eqn:Ek; [congruence|]. assert (U0 : u <> 0).
        { destruct KX as [->|(_ & KX)]; [|apply KX; left; auto]. exfalso. apply V0. pose proof (in_find _ _ _ (si_keys _ _ I) Hk) as Q; rewrite (in_find _ _ _ (si_keys _ _ I) (si_root _ _ I)) in Q; congruence. }
        assert (UL : u < length src) by (apply HV; left; auto). destruct (nth_lt src u UL) as (y & Ey). assert (MU : mat src u = false) by (apply E0; left; auto).
        destruct (v_out y) as [|c q] eqn:Eo; [pose proof (fk_leaf _ F u y U0 Ey Eo) as X; unfold mat in MU; rewrite Ey in MU; congruence|].
        assert (S : In c (succs src (snd k))) by (apply in_flat_map; exists u; rewrite Ek; split; [left; auto|unfold outs; rewrite Ey, Eo; left; auto]).
        destruct (succ_nz k c S) as (C0 & CL). destruct (enters_some c C0 CL) as (b & Hb). destruct (child_byte k v c b Hk S Hb) as (e & He & _). rewrite OV in He. destruct He.
      * destruct (copy_at n v Hn) as ((_ & FA) & -> & _). destruct (orig_state src d n v I Hn) as (_ & NL & _). pose proof (si_orig _ _ I _ _ Hn) as N0. destruct (nth_lt src n NL) as (y & Ey).
        unfold mat. rewrite Ey. apply (fk_leaf _ F n y N0 Ey). rewrite OV in FA. inversion FA as [E|]. unfold outs in E. rewrite Ey in E. auto.
    + intros v x Ex. pose proof (dst_ml v) as Q. unfold mat, lbl in Q. rewrite Ex in Q. auto.
    + apply (si_sym _ _ I).
  - apply (si_reach _ _ I).
  - intros v V0 VL. destruct (sort_state src d v I VL) as [(k & Hk)|(n & Hn)].
    + destruct (key_at k v Hk) as (_ & _ & (U & _ & HV & KX) & _). assert (X : exists u, In u (snd k) /\ u <> 0).
      { destruct KX as [->|(_ & KX)]; [exfalso; apply V0; pose proof (in_find _ _ _ (si_keys _ _ I) Hk) as Q; rewrite (in_find _ _ _ (si_keys _ _ I) (si_root _ _ I)) in Q; congruence|].
        destruct (snd k) as [|u r] eqn:E; [destruct U as [(m & X & _)|(X & _)]; congruence|]. exists u. split; [left; auto|apply KX; left; auto]. }
      destruct X as (u & Hu & U0). destruct (LV u U0 (HV u Hu)) as (l & A). exists l. apply (arrives_to l u A) with (k := k); auto.
    + destruct (orig_state src d n v I Hn) as (_ & NL & _). pose proof (si_orig _ _ I _ _ Hn) as N0. destruct (LV n N0 NL) as (l & A). exists l. apply (arrives_to l n A). auto.
  - intros v l M A. assert (VL : v < length dst) by (unfold mat in M; destruct (nth_error dst v) eqn:E; [apply nth_error_Some; congruence|discriminate]).
    destruct (sort_state src d v I VL) as [(k & Hk)|(n & Hn)].
    + destruct (key_at k v Hk) as (M' & L' & (U & _) & _). destruct (arrives_from l v A) as (X & _). destruct (X k Hk) as (n & Hn & An). destruct (uniform_mat _ U) as [(E & El)|(E & _)]; [|congruence].
      rewrite El in Hn. destruct Hn as [<-|[]]. rewrite L'. apply OW; auto.
    + destruct (copy_at n v Hn) as (_ & M' & L'). destruct (arrives_from l v A) as (_ & X). rewrite L'. apply OW; [congruence|auto].
  - intros v. destruct (Nat.lt_ge_cases v (length dst)) as [VL|VL]; [|left; unfold lbl; apply nth_error_None in VL; rewrite VL; auto]. destruct (sort_state src d v I VL) as [(k & Hk)|(n & Hn)].
    + destruct (key_at k v Hk) as (_ & -> & _). apply LI.
    + destruct (copy_at n v Hn) as (_ & _ & ->). apply LI.
Qed.

(** Without copies no two edges lead from one state to another. *)
Theorem subset_nodup : (N.of_nat (length dst) <= limit)%N -> no_parallel dst.
Proof.
  intros HL v. destruct (Nat.lt_ge_cases v (length dst)) as [VL|VL]; [|rewrite outs_none by auto; constructor].
  assert (NI : forall n u, ~ linked d n u).
  { intros n u H. destruct (orig_state src d n u I H) as (UL & _ & U0 & NK). pose proof (si_reach _ _ I u UL) as R. revert n H. induction R as [|a c R IH E]; intros n H.
    - destruct (orig_state src d n 0 I H) as (_ & _ & X & _). auto.
    - assert (AL : a < length dst) by (eapply outs_in; eauto). destruct (sort_state src d a I AL) as [(k & Hk)|(m & Hm)].
      + destruct (key_at k a Hk) as (_ & _ & KO & [(gs & G & FA)|(X & _)]); [|lia]. destruct (Forall2_in_r _ _ _ FA c E) as (k' & Hk' & Hf). destruct (group_state k gs k' c KO G Hk' Hf) as (Hc & _).
        destruct (orig_state src d n c I H) as (_ & _ & _ & NK'). eapply NK'; eauto.
      + destruct (orig_state src d m a I Hm) as (B1 & _ & B2 & B3). eapply IH; eauto. }
  destruct (sort_state src d v I VL) as [(k & Hk)|(n & Hn)]; [|exfalso; eapply NI; eauto].
  destruct (key_at k v Hk) as (_ & _ & KO & [(gs & G & FA)|(X & _)]); [|lia]. pose proof (gr_nodup _ _ _ G) as ND. revert ND FA. generalize (outs dst v). intros cs ND FA. clear G.
  induction FA as [|k' c gs cs Hf FA IH]; [constructor|]. inversion ND as [|? ? N1 N2]; subst. constructor; auto. intros Hc. destruct (Forall2_in_r _ _ _ FA c Hc) as (k2 & Hk2 & Hf2).
  apply find_in in Hf, Hf2. rewrite (key_inj src d k' k2 c I Hf Hf2) in N1. auto.
Qed.
End Sem.
