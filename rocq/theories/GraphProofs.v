(** The vector family refines plain lists, and the graph's lists stay consistent. *)
From Verif Require Import Base GraphModel.
Open Scope nat_scope.

(** The plain list a List stands for. *)
Definition absl (s : store) (l : vlist) : list nat :=
  match l_which l with ZERO => [] | ONE => [l_what l] | MANY => nth (l_what l) s [] end.

Definition okl (s : store) (l : vlist) : Prop :=
  l_which l = MANY -> l_what l < length s /\ 2 <= length (nth (l_what l) s []).

Record fwf (s : store) (ls : list vlist) : Prop := {
  f_many : forall k l, nth_error ls k = Some l -> okl s l;
  f_sep : forall j k l m, j <> k -> nth_error ls j = Some l -> nth_error ls k = Some m ->
            l_which l = MANY -> l_which m = MANY -> l_what l <> l_what m
}.

(** What an operation on one list may change. *)
Definition change (s : store) (l : vlist) (s' : store) (l' : vlist) (x : list nat) : Prop :=
  absl s' l' = x /\ length s <= length s' /\
  (forall i, i < length s -> (l_which l = MANY -> i <> l_what l) -> nth i s' [] = nth i s []) /\
  (l_which l' = MANY -> l_what l' < length s' /\ 2 <= length x /\
     (l_what l' = l_what l /\ l_which l = MANY \/ length s <= l_what l')).

Lemma nth_upd_eq {A} (l : list A) i a d : i < length l -> nth i (upd l i a) d = a.
Proof. intros H. apply nth_error_nth. apply nth_upd_same; auto. Qed.

Lemma nth_upd_neq {A} (l : list A) i j a d : i <> j -> nth j (upd l i a) d = nth j l d.
Proof.
  intros H. destruct (nth_error l j) eqn:E.
  - rewrite (nth_error_nth _ _ d E). apply nth_error_nth. rewrite nth_upd_other; auto.
  - pose proof (proj1 (nth_error_None _ _) E). rewrite !nth_overflow; auto. rewrite upd_length; auto.
Qed.

Lemma nth_error_upd {A} (l : list A) k j a :
  nth_error (upd l k a) j = if j =? k then (if k <? length l then Some a else None) else nth_error l j.
Proof.
  destruct (Nat.eqb_spec j k) as [->|H].
  - destruct (Nat.ltb_spec k (length l)); [apply nth_upd_same; auto|].
    apply nth_error_None. rewrite upd_length; auto.
  - apply nth_upd_other; auto.
Qed.

Lemma map_upd {A B} (f : A -> B) l k a : map f (upd l k a) = upd (map f l) k (f a).
Proof. revert k; induction l; intros [|k]; simpl; auto. f_equal; auto. Qed.

Lemma change_upd s ls k l s' l' x :
  fwf s ls -> nth_error ls k = Some l -> change s l s' l' x ->
  fwf s' (upd ls k l') /\ map (absl s') (upd ls k l') = upd (map (absl s) ls) k x.
Proof.
  intros [Hm Hs] Hk (Hx & Hlen & Hfr & Hmany).
  assert (Hlt : k < length ls) by (apply nth_error_Some; congruence).
  assert (Hoth : forall j m, j <> k -> nth_error ls j = Some m -> absl s' m = absl s m).
  { intros j m Hj Hjm. unfold absl. destruct (l_which m) eqn:W; auto.
    apply Hfr; [apply (Hm _ _ Hjm W)|]. intros Wl. apply (Hs j k m l); auto. }
  split.
  - constructor.
    + intros j m Hj W. rewrite nth_error_upd in Hj. destruct (Nat.eqb_spec j k) as [->|Hjk].
      * destruct (k <? length ls); inversion Hj; subst m. destruct (Hmany W) as (A & B & _).
        split; auto. unfold absl in Hx. rewrite W in Hx. rewrite Hx; auto.
      * pose proof (Hm _ _ Hj W) as [A B]. split; [lia|].
        pose proof (Hoth _ _ Hjk Hj) as E. unfold absl in E. rewrite W in E. rewrite E; auto.
    + intros i j a b Hij Hi Hj Wa Wb. rewrite nth_error_upd in Hi, Hj.
      destruct (Nat.eqb_spec i k) as [->|Hik]; destruct (Nat.eqb_spec j k) as [->|Hjk]; try congruence.
      * destruct (k <? length ls); inversion Hi; subst a.
        destruct (Hmany Wa) as (_ & _ & [[E Wl]|Hge]).
        -- rewrite E. apply (Hs k j l b); auto.
        -- pose proof (Hm _ _ Hj Wb). lia.
      * destruct (k <? length ls); inversion Hj; subst b.
        destruct (Hmany Wb) as (_ & _ & [[E Wl]|Hge]).
        -- rewrite E. apply (Hs i k a l); auto.
        -- pose proof (Hm _ _ Hi Wa). lia.
      * apply (Hs i j a b); auto.
  - apply nth_error_ext. intros j. rewrite map_upd, !nth_error_upd, !map_length.
    destruct (Nat.eqb_spec j k) as [->|Hjk].
    + destruct (k <? length ls); [|reflexivity]. f_equal. auto.
    + rewrite !nth_error_map. destruct (nth_error ls j) eqn:E; simpl; auto. f_equal. eapply Hoth; eauto.
Qed.

Lemma get_nth {A} (l : list A) i d : i < length l -> get l i = Ok (nth i l d).
Proof. intros H. apply get_ok. apply nth_error_nth'; auto. Qed.

Lemma set_at_ok {A} (l : list A) i a : i < length l -> set_at l i a = Ok (upd l i a).
Proof. intros H. unfold set_at. apply Nat.ltb_lt in H. rewrite H. reflexivity. Qed.

(** A change in place of the vector of a MANY list. *)
Lemma change_store s l x :
  l_which l = MANY -> l_what l < length s -> 2 <= length x -> change s l (upd s (l_what l) x) l x.
Proof.
  intros W H Hx. unfold change, absl. rewrite W, upd_length. repeat split; auto.
  - apply nth_upd_eq; auto.
  - intros i Hi Hne. apply nth_upd_neq. intros E. symmetry in E. revert E. apply Hne; auto.
Qed.

Lemma vf_add_ok s l e : okl s l ->
  exists s' l', vf_add s l e = Ok (s', l') /\ change s l s' l' (absl s l ++ [e]).
Proof.
  intros Hok. unfold vf_add, absl. destruct (l_which l) eqn:W.
  - do 2 eexists. split; [reflexivity|]. unfold change, absl. simpl. rewrite W. repeat split; auto; discriminate.
  - do 2 eexists. split; [reflexivity|]. unfold change, absl. simpl. rewrite app_length, app_nth2, Nat.sub_diag; [|lia].
    simpl. repeat split; auto; try lia. intros i Hi _. rewrite app_nth1; auto.
  - destruct (Hok W) as [A B]. rewrite (get_nth _ _ []); auto. simpl. rewrite set_at_ok; auto. simpl.
    do 2 eexists. split; [reflexivity|]. apply change_store; auto. rewrite app_length; simpl; lia.
Qed.

Lemma insert_length {A} (x : list A) i e : length (firstn i x ++ e :: skipn i x) = S (length x).
Proof. rewrite <- (firstn_skipn i x) at 3. rewrite !app_length. simpl. lia. Qed.

Lemma vf_insert_ok s l i e : okl s l ->
  exists s' l', vf_insert s l i e = Ok (s', l') /\
    change s l s' l' (firstn i (absl s l) ++ e :: skipn i (absl s l)).
Proof.
  intros Hok. unfold vf_insert, absl. destruct (l_which l) eqn:W.
  - do 2 eexists. split; [reflexivity|]. unfold change, absl. simpl. rewrite W, firstn_nil, skipn_nil. repeat split; auto; discriminate.
  - do 2 eexists. split; [reflexivity|]. unfold change, absl. simpl. rewrite app_length, app_nth2, Nat.sub_diag; [|lia].
    simpl. destruct i as [|i]; simpl; [|rewrite firstn_nil, skipn_nil]; repeat split; auto; simpl; try lia;
    intros j Hj _; rewrite app_nth1; auto.
  - destruct (Hok W) as [A B]. rewrite (get_nth _ _ []); auto. simpl. rewrite set_at_ok; auto. simpl.
    set (v := nth (l_what l) s []) in *.
    assert (E : (let p := if i <? length v then i else length v in firstn p v ++ e :: skipn p v) = firstn i v ++ e :: skipn i v).
    { simpl. destruct (Nat.ltb_spec i (length v)); auto.
      rewrite (firstn_all2 v H), (skipn_all2 v H), firstn_all, skipn_all. reflexivity. }
    simpl in E. rewrite E. do 2 eexists. split; [reflexivity|]. apply change_store; auto. rewrite insert_length; lia.
Qed.

Lemma vfind_in v e : In e v -> exists i, vfind v e = Some i /\ nth_error v i = Some e.
Proof.
  induction v as [|a t IH]; simpl; [tauto|]. intros H. destruct (Nat.eqb_spec a e) as [->|Hne].
  - exists 0. auto.
  - destruct IH as (i & E & N); [tauto|]. rewrite E. exists (S i). auto.
Qed.

Lemma filter_out_id (e : nat) v : ~ In e v -> filter (fun d => negb (d =? e)) v = v.
Proof.
  induction v as [|a t IH]; simpl; auto. intros H. destruct (Nat.eqb_spec a e); simpl; [tauto|]. f_equal. auto.
Qed.

Lemma vfind_remove v e i : NoDup v -> vfind v e = Some i ->
  firstn i v ++ skipn (S i) v = filter (fun d => negb (d =? e)) v.
Proof.
  intros Hnd. revert i. induction Hnd as [|a t Hn Hnd IH]; simpl; [discriminate|].
  intros i. destruct (Nat.eqb_spec a e) as [->|Hne]; simpl.
  - intros E; inversion E. simpl. symmetry. apply filter_out_id; auto.
  - destruct (vfind t e) eqn:E; [|discriminate]. intros X; inversion X. simpl. f_equal. apply (IH n); auto.
Qed.

Lemma vfind_dec v e i b : NoDup v -> vfind v e = Some i ->
  upd v i b = map (fun d => if d =? e then b else d) v.
Proof.
  intros Hnd. revert i. induction Hnd as [|a t Hn Hnd IH]; simpl; [discriminate|].
  intros i. destruct (Nat.eqb_spec a e) as [->|Hne]; simpl.
  - intros E; inversion E. simpl. f_equal. symmetry. rewrite <- map_id. apply map_ext_in. intros d Hd.
    destruct (Nat.eqb_spec d e); subst; tauto.
  - destruct (vfind t e) eqn:E; [|discriminate]. intros X; inversion X. simpl. f_equal. apply (IH n); auto.
Qed.

Lemma filter_length_le {A} (f : A -> bool) l : length (filter f l) <= length l.
Proof. induction l; simpl; auto. destruct (f a); simpl; lia. Qed.

Lemma vf_remove_ok s l e : okl s l -> NoDup (absl s l) -> In e (absl s l) ->
  exists s' l', vf_remove s l e = Ok (s', l') /\
    change s l s' l' (filter (fun d => negb (d =? e)) (absl s l)).
Proof.
  intros Hok Hnd Hin. unfold vf_remove. unfold absl in *. destruct (l_which l) eqn:W.
  - destruct Hin.
  - destruct Hin as [E|[]]. rewrite E, Nat.eqb_refl. do 2 eexists. split; [reflexivity|].
    unfold change, absl. simpl. rewrite Nat.eqb_refl. simpl. repeat split; auto; discriminate.
  - destruct (Hok W) as [A B]. rewrite (get_nth _ _ []); auto. cbn [bind]. set (v := nth (l_what l) s []) in *.
    destruct (vfind_in _ _ Hin) as (i & Ei & Ni). rewrite Ei.
    pose proof (vfind_remove _ _ _ Hnd Ei) as R. cbv zeta. rewrite R.
    assert (L : length (filter (fun d => negb (d =? e)) v) + 1 = length v).
    { rewrite <- R, app_length, firstn_length, skipn_length.
      assert (i < length v) by (apply nth_error_Some; congruence). lia. }
    rewrite !set_at_ok; auto. cbn [bind].
    destruct (filter (fun d => negb (d =? e)) v) as [|x [|y r]] eqn:F.
    + simpl in L. lia.
    + do 2 eexists. split; [reflexivity|]. unfold change, absl. simpl. rewrite upd_length, W. repeat split; auto; try discriminate.
      intros j Hj Hne. apply nth_upd_neq. intros X. symmetry in X. revert X. apply Hne; auto.
    + do 2 eexists. split; [reflexivity|]. apply change_store; auto. simpl. lia.
Qed.

Lemma vf_dec_ok s l e : okl s l -> NoDup (absl s l) -> In e (absl s l) ->
  exists s' l', vf_dec s l e = Ok (s', l') /\
    change s l s' l' (map (fun d => if d =? e then e - 1 else d) (absl s l)).
Proof.
  intros Hok Hnd Hin. unfold vf_dec. unfold absl in *. destruct (l_which l) eqn:W.
  - destruct Hin.
  - destruct Hin as [E|[]]. rewrite E, Nat.eqb_refl. do 2 eexists. split; [reflexivity|].
    unfold change, absl. simpl. rewrite Nat.eqb_refl. repeat split; auto; discriminate.
  - destruct (Hok W) as [A B]. rewrite (get_nth _ _ []); auto. simpl. set (v := nth (l_what l) s []) in *.
    destruct (vfind_in _ _ Hin) as (i & Ei & Ni). rewrite Ei, set_at_ok; auto. simpl.
    rewrite (vfind_dec _ _ _ _ Hnd Ei). do 2 eexists. split; [reflexivity|]. apply change_store; auto. rewrite map_length; auto.
Qed.

Lemma vf_clear_ok s l : okl s l ->
  exists s' l', vf_clear s l = Ok (s', l') /\ change s l s' l' [].
Proof.
  intros Hok. unfold vf_clear. destruct (l_which l) eqn:W.
  - do 2 eexists. split; [reflexivity|]. unfold change, absl. rewrite W. repeat split; auto; discriminate.
  - do 2 eexists. split; [reflexivity|]. unfold change, absl. simpl. repeat split; auto; discriminate.
  - destruct (Hok W) as [A B]. rewrite set_at_ok; auto. simpl. do 2 eexists. split; [reflexivity|].
    unfold change, absl. simpl. rewrite upd_length, W. repeat split; auto; try discriminate.
    intros i Hi Hne. apply nth_upd_neq. intros E. symmetry in E. revert E. apply Hne; auto.
Qed.

Definition gfwf (g : graph) : Prop := fwf (g_store g) (g_lists g).
Definition abs (g : graph) : list (list nat) := map (absl (g_store g)) (g_lists g).

Lemma on_list_ok g k f (F : list nat -> list nat) :
  gfwf g -> k < length (g_lists g) ->
  (forall l, nth_error (g_lists g) k = Some l -> okl (g_store g) l -> absl (g_store g) l = nth k (abs g) [] ->
     exists s' l', f (g_store g) l = Ok (s', l') /\ change (g_store g) l s' l' (F (absl (g_store g) l))) ->
  exists g', on_list g k f = Ok g' /\ gfwf g' /\ abs g' = upd (abs g) k (F (nth k (abs g) [])) /\
    g_edges g' = g_edges g.
Proof.
  intros Hw Hk Hf. unfold on_list. destruct (nth_error (g_lists g) k) as [l|] eqn:E.
  2:{ apply nth_error_None in E. lia. }
  unfold get. rewrite E. simpl.
  assert (Ha : absl (g_store g) l = nth k (abs g) []).
  { symmetry. apply nth_error_nth. unfold abs. rewrite nth_error_map, E. reflexivity. }
  destruct (Hf l eq_refl) as (s' & l' & -> & C); auto.
  { apply (f_many _ _ Hw k); auto. }
  simpl. eexists. split; [reflexivity|]. destruct (change_upd _ _ _ _ _ _ _ Hw E C) as [Hw' Hab].
  split; [exact Hw'|]. split; [|reflexivity]. rewrite <- Ha. exact Hab.
Qed.

Lemma abs_length g : length (abs g) = length (g_lists g).
Proof. apply map_length. Qed.

(** * Consistency of the lists with the edges, on plain lists *)

Record pwf (A : list (list nat)) (E : list (nat * nat)) : Prop := {
  p_nodup : forall k, NoDup (nth k A []);
  p_in : forall k e, In e (nth k A []) <-> exists h t, nth_error E e = Some (h, t) /\ (k = outl h \/ k = inl t);
  p_bound : forall e h t, nth_error E e = Some (h, t) -> outl h < length A /\ inl t < length A
}.

Lemma out_in_neq h t : outl h <> inl t.
Proof. unfold outl, inl. lia. Qed.

(** ** Renumbering *)

Definition ren (ed i d : nat) : nat := if (ed <? d) && (d <=? i) then d - 1 else d.

Definition drop (ed : nat) (v : list nat) := filter (fun d => negb (d =? ed)) v.

Lemma nodup_map_ren ed i v : NoDup v -> NoDup (map (ren ed i) (drop ed v)).
Proof.
  intros H. assert (Hd : NoDup (drop ed v)) by (apply NoDup_filter; auto).
  assert (Hn : ~ In ed (drop ed v)).
  { intros X. apply filter_In in X. destruct X as [_ X]. rewrite Nat.eqb_refl in X. discriminate. }
  induction Hd as [|a t Ha Hd IH]; simpl; constructor; simpl in Hn.
  - intros X. apply in_map_iff in X. destruct X as (b & Eb & Hb).
    assert (a <> ed) by tauto. assert (b <> ed) by (intros ->; tauto). assert (a <> b) by congruence.
    revert Eb. unfold ren. destruct (Nat.ltb_spec ed a), (Nat.ltb_spec ed b), (Nat.leb_spec a i), (Nat.leb_spec b i); simpl; lia.
  - apply IH. tauto.
Qed.

Lemma ren_step ed i d : ed <= i -> d <> ed ->
  (if ren ed i d =? i + 1 then i + 1 - 1 else ren ed i d) = ren ed (i + 1) d.
Proof.
  intros. unfold ren. destruct (Nat.ltb_spec ed d), (Nat.leb_spec d i), (Nat.leb_spec d (i + 1)); simpl;
  try (destruct (Nat.eqb_spec (d - 1) (i + 1)); lia); try (destruct (Nat.eqb_spec d (i + 1)); lia).
Qed.

Lemma ren_same ed i v : ed <= i -> ~ In (i + 1) v -> map (ren ed i) (drop ed v) = map (ren ed (i + 1)) (drop ed v).
Proof.
  intros H Hn. apply map_ext_in. intros d Hd. apply filter_In in Hd. destruct Hd as [Hd X].
  assert (d <> i + 1) by congruence. unfold ren.
  destruct (Nat.ltb_spec ed d), (Nat.leb_spec d i), (Nat.leb_spec d (i + 1)); simpl; lia.
Qed.

Lemma ren_in ed i v : ed <= i -> In (i + 1) v -> In (i + 1) (map (ren ed i) (drop ed v)).
Proof.
  intros H Hin. apply in_map_iff. exists (i + 1). split.
  - unfold ren. destruct (Nat.leb_spec (i + 1) i); [lia|]. rewrite andb_false_r. reflexivity.
  - apply filter_In. split; auto. destruct (Nat.eqb_spec (i + 1) ed); [lia|reflexivity].
Qed.

Lemma renumber_ok ed A0 E0 : pwf A0 E0 ->
  forall es i g, es = skipn (i + 1) E0 -> ed <= i ->
  gfwf g -> abs g = map (fun v => map (ren ed i) (drop ed v)) A0 ->
  exists g', renumber es i g = Ok g' /\ gfwf g' /\ g_edges g' = g_edges g /\
    abs g' = map (fun v => map (ren ed (i + length es)) (drop ed v)) A0.
Proof.
  intros Hp. induction es as [|[h t] es IH]; intros i g He Hi Hw Hab.
  - exists g. simpl. rewrite Nat.add_0_r. auto.
  - assert (Hn : nth_error E0 (i + 1) = Some (h, t)).
    { pose proof (firstn_skipn (i + 1) E0) as F. rewrite <- He in F.
      rewrite <- F. rewrite nth_error_app2; rewrite firstn_length.
      - replace (i + 1 - Nat.min (i + 1) (length E0)) with 0; [reflexivity|].
        assert (length (skipn (i + 1) E0) = S (length es)) by (rewrite <- He; reflexivity). rewrite skipn_length in H. lia.
      - lia. }
    assert (Hes : es = skipn (i + 1 + 1) E0).
    { replace (i + 1 + 1) with (S (i + 1)) by lia. clear - He.
      revert E0 He. generalize (i + 1). induction n; intros [|x E0] He; simpl in *; try discriminate; try (inversion He; reflexivity).
      rewrite IHn with (E0 := E0); auto. }
    destruct (p_bound _ _ Hp _ _ _ Hn) as [Bh Bt].
    assert (Hl : length (g_lists g) = length A0) by (rewrite <- abs_length, Hab, map_length; reflexivity).
    assert (Hcur : forall k, nth k (abs g) [] = map (ren ed i) (drop ed (nth k A0 []))).
    { intros k. rewrite Hab. change (@nil nat) with ((fun v => map (ren ed i) (drop ed v)) []) at 1. apply map_nth. }
    cbn [renumber].
    destruct (on_list_ok g (outl h) (fun s l => vf_dec s l (i + 1)) (map (fun d => if d =? i + 1 then i + 1 - 1 else d))) as (g1 & -> & W1 & A1 & E1); auto; [lia| |].
    { intros l Hk Hok Ha. apply vf_dec_ok; auto; rewrite Ha, Hcur.
      - apply nodup_map_ren. apply (p_nodup _ _ Hp).
      - apply ren_in; auto. apply (p_in _ _ Hp). eauto. }
    cbn [bind].
    destruct (on_list_ok g1 (inl t) (fun s l => vf_dec s l (i + 1)) (map (fun d => if d =? i + 1 then i + 1 - 1 else d))) as (g2 & -> & W2 & A2 & E2); auto.
    { rewrite <- abs_length, A1, upd_length, abs_length; lia. }
    { intros l Hk Hok Ha. rewrite A1, nth_upd_neq in Ha by apply out_in_neq. apply vf_dec_ok; auto; rewrite Ha, Hcur.
      - apply nodup_map_ren. apply (p_nodup _ _ Hp).
      - apply ren_in; auto. apply (p_in _ _ Hp). eauto. }
    cbn [bind].
    assert (Hst : forall v, map (fun d => if d =? i + 1 then i + 1 - 1 else d) (map (ren ed i) (drop ed v)) = map (ren ed (i + 1)) (drop ed v)).
    { intros v. rewrite map_map. apply map_ext_in. intros d Hd. apply ren_step; auto.
      apply filter_In in Hd. destruct Hd as [_ X]. destruct (Nat.eqb_spec d ed); [discriminate|auto]. }
    destruct (IH (i + 1) g2) as (g' & -> & W' & E' & A'); auto; [lia| |].
    + rewrite A2, A1. apply nth_error_ext. intros k.
      rewrite !nth_error_upd, !upd_length, !abs_length, Hl.
      rewrite nth_upd_neq by apply out_in_neq. rewrite !Hcur, !Hst, !nth_error_map.
      destruct (Nat.eqb_spec k (inl t)) as [->|Hk1].
      { rewrite (proj2 (Nat.ltb_lt _ _) Bt). rewrite (nth_error_nth' A0 []) by auto. reflexivity. }
      destruct (Nat.eqb_spec k (outl h)) as [->|Hk2].
      { rewrite (proj2 (Nat.ltb_lt _ _) Bh). rewrite (nth_error_nth' A0 []) by auto. reflexivity. }
      rewrite Hab, nth_error_map. destruct (nth_error A0 k) eqn:Ek; auto. simpl. f_equal.
      apply ren_same; auto. intros X. rewrite <- (nth_error_nth _ _ [] Ek) in X.
      apply (p_in _ _ Hp) in X. destruct X as (h' & t' & Ee & Hor). rewrite Hn in Ee. inversion Ee; subst. tauto.
    + exists g'. split; [reflexivity|]. split; [exact W'|]. split; [congruence|]. rewrite A'. simpl. replace (i + 1 + length es) with (i + S (length es)) by lia. reflexivity.
Qed.

Lemma drop_in ed v e : In e (drop ed v) <-> In e v /\ e <> ed.
Proof.
  unfold drop. rewrite filter_In. destruct (Nat.eqb_spec e ed); simpl; intuition discriminate.
Qed.

Lemma map_id_in {A} (f : A -> A) l : (forall a, In a l -> f a = a) -> map f l = l.
Proof. intros H. rewrite <- (map_id l) at 2. apply map_ext_in; auto. Qed.

Lemma upd_nth_id {A} (l : list A) k d : k < length l -> upd l k (nth k l d) = l.
Proof. revert k; induction l; intros [|k] H; simpl in *; try lia; auto. f_equal. apply IHl. lia. Qed.

Lemma removeEdge_ok g ed : gfwf g -> pwf (abs g) (g_edges g) -> ed < length (g_edges g) ->
  exists g', removeEdge g ed = Ok g' /\ gfwf g' /\
    g_edges g' = firstn ed (g_edges g) ++ skipn (S ed) (g_edges g) /\
    abs g' = map (fun v => map (fun d => if ed <? d then d - 1 else d) (drop ed v)) (abs g).
Proof.
  intros Hw Hp Hed. unfold removeEdge. destruct (nth_error (g_edges g) ed) as [[h t]|] eqn:E.
  2:{ apply nth_error_None in E. lia. }
  unfold get at 1. rewrite E. cbn [bind].
  destruct (p_bound _ _ Hp _ _ _ E) as [Bh Bt]. rewrite abs_length in Bh, Bt.
  destruct (on_list_ok g (outl h) (fun s l => vf_remove s l ed) (drop ed)) as (g1 & -> & W1 & A1 & E1); auto.
  { intros l Hk Hok Ha. apply vf_remove_ok; auto; rewrite Ha; [apply (p_nodup _ _ Hp)|]. apply (p_in _ _ Hp). eauto. }
  cbn [bind].
  destruct (on_list_ok g1 (inl t) (fun s l => vf_remove s l ed) (drop ed)) as (g2 & -> & W2 & A2 & E2); auto.
  { rewrite <- abs_length, A1, upd_length, abs_length. auto. }
  { intros l Hk Hok Ha. rewrite A1, nth_upd_neq in Ha by apply out_in_neq.
    apply vf_remove_ok; auto; rewrite Ha; [apply (p_nodup _ _ Hp)|]. apply (p_in _ _ Hp). eauto. }
  cbn [bind]. unfold compact_after_edge. rewrite E2, E1.
  assert (Hsk : skipn ed (firstn ed (g_edges g) ++ skipn (S ed) (g_edges g)) = skipn (ed + 1) (g_edges g)).
  { rewrite skipn_app, firstn_length, Nat.min_l by lia. rewrite skipn_all2 by (rewrite firstn_length; lia).
    rewrite Nat.sub_diag. simpl skipn at 1. replace (ed + 1) with (S ed) by lia. reflexivity. }
  rewrite Hsk.
  destruct (renumber_ok ed (abs g) (g_edges g) Hp (skipn (ed + 1) (g_edges g)) ed
              (mkG (g_lists g2) (firstn ed (g_edges g) ++ skipn (S ed) (g_edges g)) (g_store g2))) as (g' & -> & W' & E' & A'); auto.
  - change (abs g2 = map (fun v => map (ren ed ed) (drop ed v)) (abs g)). rewrite A2, A1.
    rewrite nth_upd_neq by apply out_in_neq. apply nth_error_ext. intros k.
    rewrite !nth_error_upd, upd_length, !abs_length, nth_error_map.
    assert (R : forall v, map (ren ed ed) (drop ed v) = drop ed v).
    { intros v. apply map_id_in. intros d Hd. unfold ren. destruct (Nat.ltb_spec ed d), (Nat.leb_spec d ed); simpl; lia. }
    destruct (Nat.eqb_spec k (inl t)) as [->|Hk1].
    { rewrite (proj2 (Nat.ltb_lt _ _) Bt), (nth_error_nth' (abs g) []) by (rewrite abs_length; auto). simpl. rewrite R. reflexivity. }
    destruct (Nat.eqb_spec k (outl h)) as [->|Hk2].
    { rewrite (proj2 (Nat.ltb_lt _ _) Bh), (nth_error_nth' (abs g) []) by (rewrite abs_length; auto). simpl. rewrite R. reflexivity. }
    destruct (nth_error (abs g) k) eqn:Ek; auto. simpl. rewrite R. f_equal. symmetry. apply filter_out_id.
    intros X. rewrite <- (nth_error_nth _ _ [] Ek) in X. apply (p_in _ _ Hp) in X. destruct X as (h' & t' & Ee & Hor).
    rewrite E in Ee. inversion Ee; subst. tauto.
  - exists g'. split; [reflexivity|]. split; [exact W'|]. split; [exact E'|]. rewrite A'. apply map_ext_in. intros v Hv. apply map_ext_in. intros d Hd.
    apply drop_in in Hd. destruct Hd as [Hd _]. apply In_nth with (d := []) in Hv. destruct Hv as (k & _ & <-).
    apply (p_in _ _ Hp) in Hd. destruct Hd as (h' & t' & Ee & _).
    assert (d < length (g_edges g)) by (apply nth_error_Some; congruence). rewrite skipn_length. unfold ren.
    destruct (Nat.ltb_spec ed d), (Nat.leb_spec d (ed + (length (g_edges g) - (ed + 1)))); simpl; lia.
Qed.

(** Two insertions into the lists of a new edge. *)
Lemma new_edge_ok g h t (f1 f2 : nat -> store -> vlist -> res (store * vlist)) (F1 F2 : list nat -> list nat) :
  let ed := length (g_edges g) in
  gfwf g -> outl h < length (g_lists g) -> inl t < length (g_lists g) ->
  (forall s l, okl s l -> exists s' l', f1 ed s l = Ok (s', l') /\ change s l s' l' (F1 (absl s l))) ->
  (forall s l, okl s l -> exists s' l', f2 ed s l = Ok (s', l') /\ change s l s' l' (F2 (absl s l))) ->
  exists g', (g1 <- on_list (mkG (g_lists g) (g_edges g ++ [(h, t)]) (g_store g)) (outl h) (f1 ed) ;;
              on_list g1 (inl t) (f2 ed)) = Ok g' /\ gfwf g' /\ g_edges g' = g_edges g ++ [(h, t)] /\
    abs g' = upd (upd (abs g) (outl h) (F1 (nth (outl h) (abs g) []))) (inl t) (F2 (nth (inl t) (abs g) [])).
Proof.
  intros ed Hw Bh Bt H1 H2.
  destruct (on_list_ok (mkG (g_lists g) (g_edges g ++ [(h, t)]) (g_store g)) (outl h) (f1 ed) F1) as (g1 & -> & W1 & A1 & E1); auto.
  cbn [bind]. change (abs (mkG (g_lists g) (g_edges g ++ [(h, t)]) (g_store g))) with (abs g) in A1.
  destruct (on_list_ok g1 (inl t) (f2 ed) F2) as (g2 & -> & W2 & A2 & E2); auto.
  { rewrite <- abs_length, A1, upd_length, abs_length; auto. }
  exists g2. split; [reflexivity|]. split; [exact W2|]. split; [rewrite E2; exact E1|]. rewrite A2, A1, nth_upd_neq by apply out_in_neq. reflexivity.
Qed.

Lemma clear_lists_ok ls : forall s, fwf s ls ->
  exists ls' s', clear_lists ls s = Ok (ls', s') /\ fwf s' ls' /\ map (absl s') ls' = repeat [] (length ls).
Proof.
  assert (G : forall ls s, (forall k l, nth_error ls k = Some l -> l_which l = MANY -> l_what l < length s) ->
    exists ls' s', clear_lists ls s = Ok (ls', s') /\ length ls' = length ls /\ forall l, In l ls' -> l_which l = ZERO).
  { induction ls0 as [|l r IH]; intros s H; simpl.
    - do 2 eexists. split; [reflexivity|]. simpl. tauto.
    - assert (X : exists s1 l1, vf_clear s l = Ok (s1, l1) /\ length s1 = length s /\ l_which l1 = ZERO).
      { unfold vf_clear. destruct (l_which l) eqn:W.
        - do 2 eexists. split; [reflexivity|]. auto.
        - do 2 eexists. split; [reflexivity|]. auto.
        - rewrite set_at_ok by (apply (H 0 l); auto). simpl. do 2 eexists. split; [reflexivity|]. rewrite upd_length. auto. }
      destruct X as (s1 & l1 & -> & L1 & Z1). simpl.
      destruct (IH s1) as (ls' & s' & -> & L' & Z').
      { intros k m Hk W. rewrite L1. apply (H (S k) m); auto. }
      simpl. do 2 eexists. split; [reflexivity|]. simpl. split; [lia|]. intros m [<-|Hm]; auto. }
  intros s Hw. destruct (G ls s) as (ls' & s' & Eq & L & Z).
  { intros k l Hk W. apply (f_many _ _ Hw k l); auto. }
  exists ls', s'. split; auto. split.
  - constructor.
    + intros k l Hk W. apply nth_error_In in Hk. rewrite (Z _ Hk) in W. discriminate.
    + intros j k l m _ Hj _ W. apply nth_error_In in Hj. rewrite (Z _ Hj) in W. discriminate.
  - rewrite <- L. clear - Z. induction ls' as [|a t IH]; simpl; auto. f_equal.
    + unfold absl. rewrite (Z a); simpl; auto.
    + apply IH. simpl in Z. auto.
Qed.

(** ** Reading *)

Lemma elements_ok g k : gfwf g -> k < length (g_lists g) -> elements g k = Ok (nth k (abs g) []).
Proof.
  intros Hw Hk. unfold elements. destruct (nth_error (g_lists g) k) as [l|] eqn:E.
  2:{ apply nth_error_None in E. lia. }
  unfold get. rewrite E. cbn [bind]. unfold abs.
  rewrite (nth_error_nth (map (absl (g_store g)) (g_lists g)) k [] (x := absl (g_store g) l)) by (rewrite nth_error_map, E; reflexivity).
  unfold vf_elements, absl. destruct (l_which l) eqn:W; auto.
  destruct (f_many _ _ Hw k l E W) as [A B]. rewrite (get_nth _ _ []) by auto. cbn [bind].
  destruct (nth (l_what l) (g_store g) []); simpl in *; [lia|reflexivity].
Qed.

Lemma degree_ok g k : gfwf g -> k < length (g_lists g) -> degree g k = Ok (length (nth k (abs g) [])).
Proof.
  intros Hw Hk. unfold degree. destruct (nth_error (g_lists g) k) as [l|] eqn:E.
  2:{ apply nth_error_None in E. lia. }
  unfold get. rewrite E. cbn [bind]. unfold abs.
  rewrite (nth_error_nth (map (absl (g_store g)) (g_lists g)) k [] (x := absl (g_store g) l)) by (rewrite nth_error_map, E; reflexivity).
  unfold vf_size, absl. destruct (l_which l) eqn:W; auto.
  destruct (f_many _ _ Hw k l E W) as [A B]. rewrite (get_nth _ _ []) by auto. reflexivity.
Qed.

Lemma edge_at_ok g k i : gfwf g -> k < length (g_lists g) -> i < length (nth k (abs g) []) ->
  edge_at g k i = Ok (nth i (nth k (abs g) []) 0).
Proof.
  intros Hw Hk. unfold edge_at. destruct (nth_error (g_lists g) k) as [l|] eqn:E.
  2:{ apply nth_error_None in E. lia. }
  unfold get at 1. rewrite E. cbn [bind]. unfold abs.
  rewrite (nth_error_nth (map (absl (g_store g)) (g_lists g)) k [] (x := absl (g_store g) l)) by (rewrite nth_error_map, E; reflexivity).
  unfold vf_at, absl. destruct (l_which l) eqn:W; simpl; intros Hi.
  - lia.
  - destruct i; [reflexivity|lia].
  - destruct (f_many _ _ Hw k l E W) as [A B]. rewrite (get_nth _ _ []) by auto. cbn [bind]. apply get_nth; auto.
Qed.
