(** C38: the graph's adjacency lists behave as plain lists and mirror one another. *)
From Coq Require Import Permutation.
From Verif Require Import Base GraphModel GraphProofs.
Open Scope nat_scope.

(** * The specification: for every vertex the plain lists of its edges, and the edges. *)
Record plain := mkP {
  pl_n : nat;                       (* number of vertices *)
  pl_out : nat -> list nat;         (* edges leaving a vertex, by number, in order *)
  pl_in : nat -> list nat;          (* edges entering it *)
  pl_es : list (nat * nat)          (* head and tail of each edge *)
}.

Definition pl_new (n : nat) : plain := mkP n (fun _ => []) (fun _ => []) [].

Definition at_ (f : nat -> list nat) (v : nat) (x : list nat) : nat -> list nat :=
  fun u => if u =? v then x else f u.

Definition put (i e : nat) (l : list nat) : list nat := firstn i l ++ e :: skipn i l.

(** Forget edge [ed]; the edges after it are numbered one lower. *)
Definition forget (ed : nat) (l : list nat) : list nat :=
  map (fun d => if ed <? d then d - 1 else d) (filter (fun d => negb (d =? ed)) l).

(** [None]: the operation is not allowed (a vertex or edge that does not exist). *)
Definition pl_step (p : plain) (o : gop) : option plain :=
  match o with
  | GVertex => Some (mkP (S (pl_n p)) (at_ (pl_out p) (pl_n p) []) (at_ (pl_in p) (pl_n p) []) (pl_es p))
  | GEdge h t =>
      if (h <? pl_n p) && (t <? pl_n p) then
        let e := length (pl_es p) in
        Some (mkP (pl_n p) (at_ (pl_out p) h (pl_out p h ++ [e])) (at_ (pl_in p) t (pl_in p t ++ [e])) (pl_es p ++ [(h, t)]))
      else None
  | GInsert h t hi ti =>
      if (h <? pl_n p) && (t <? pl_n p) then
        let e := length (pl_es p) in
        Some (mkP (pl_n p) (at_ (pl_out p) h (put hi e (pl_out p h))) (at_ (pl_in p) t (put ti e (pl_in p t))) (pl_es p ++ [(h, t)]))
      else None
  | GRemoveEdge ed =>
      if ed <? length (pl_es p) then
        Some (mkP (pl_n p) (fun v => forget ed (pl_out p v)) (fun v => forget ed (pl_in p v))
                  (firstn ed (pl_es p) ++ skipn (S ed) (pl_es p)))
      else None
  | GClearEdges => Some (pl_new (pl_n p))
  | GClear => Some (pl_new 0)
  end.

Fixpoint pl_run (p : plain) (os : list gop) : option plain :=
  match os with [] => Some p | o :: r => match pl_step p o with Some p' => pl_run p' r | None => None end end.

(** Everything that can be asked of the graph is answered from the plain lists. *)
Definition shows (g : graph) (p : plain) : Prop :=
  verticesSize g = pl_n p /\ edgesSize g = length (pl_es p) /\
  forall v, v < pl_n p ->
    outDegree g v = Ok (length (pl_out p v)) /\ inDegree g v = Ok (length (pl_in p v)) /\
    (forall i e, nth_error (pl_out p v) i = Some e -> outEdge g v i = Ok e) /\
    (forall i e, nth_error (pl_in p v) i = Some e -> inEdge g v i = Ok e) /\
    outVertices g v = Ok (map (fun e => snd (nth e (pl_es p) (0, 0))) (pl_out p v)) /\
    inVertices g v = Ok (map (fun e => fst (nth e (pl_es p) (0, 0))) (pl_in p v)).

(** * The simulation *)
Record sim (g : graph) (p : plain) : Prop := {
  s_fwf : gfwf g;
  s_pwf : pwf (abs g) (g_edges g);
  s_len : length (g_lists g) = 2 * pl_n p;
  s_es : g_edges g = pl_es p;
  s_out : forall v, v < pl_n p -> nth (outl v) (abs g) [] = pl_out p v;
  s_in : forall v, v < pl_n p -> nth (inl v) (abs g) [] = pl_in p v
}.

Lemma sim_new n : sim (g_new n) (pl_new n).
Proof.
  assert (A : forall k, nth k (abs (g_new n)) [] = []).
  { intros k. unfold abs, g_new; simpl. destruct (nth_in_or_default k (map (absl []) (repeat l_new (n + (n + 0)))) []) as [H|H]; auto.
    apply in_map_iff in H. destruct H as (l & E & H). apply repeat_spec in H. subst l. simpl in E. symmetry. exact E. }
  constructor; simpl; intros; auto.
  - constructor; simpl.
    + intros k l H W. apply nth_error_In, repeat_spec in H. subst. discriminate.
    + intros j k l m _ H _ W. apply nth_error_In, repeat_spec in H. subst. discriminate.
  - constructor; intros; rewrite ?A.
    + constructor.
    + split; [intros []|]. intros (h & t & E & _). destruct e; discriminate.
    + destruct e; discriminate.
  - rewrite repeat_length. reflexivity.
Qed.

Lemma nth_upd_if {A} (l : list A) k j a d : k < length l -> nth j (upd l k a) d = if j =? k then a else nth j l d.
Proof. intros H. destruct (Nat.eqb_spec j k) as [->|]; [apply nth_upd_eq; auto|apply nth_upd_neq; auto]. Qed.

Lemma pwf_lt A E k e : pwf A E -> In e (nth k A []) -> e < length E.
Proof. intros H X. apply (p_in _ _ H) in X. destruct X as (h & t & Ee & _). apply nth_error_Some. congruence. Qed.

(** A new edge, wherever it is put in the two lists. *)
Lemma pwf_new A E h t F1 F2 : pwf A E -> outl h < length A -> inl t < length A ->
  (forall v, Permutation (F1 v) (length E :: v)) -> (forall v, Permutation (F2 v) (length E :: v)) ->
  pwf (upd (upd A (outl h) (F1 (nth (outl h) A []))) (inl t) (F2 (nth (inl t) A []))) (E ++ [(h, t)]).
Proof.
  intros Hp Bh Bt P1 P2.
  assert (N : forall k, nth k (upd (upd A (outl h) (F1 (nth (outl h) A []))) (inl t) (F2 (nth (inl t) A []))) [] =
     if k =? inl t then F2 (nth (inl t) A []) else if k =? outl h then F1 (nth (outl h) A []) else nth k A []).
  { intros k. rewrite nth_upd_if by (rewrite upd_length; auto). rewrite nth_upd_if by auto. reflexivity. }
  assert (ND : forall k, NoDup (length E :: nth k A [])).
  { intros k. constructor; [|apply (p_nodup _ _ Hp)]. intros X. apply (pwf_lt _ _ _ _ Hp) in X. lia. }
  assert (NE : forall e, nth_error (E ++ [(h, t)]) e = if e =? length E then Some (h, t) else nth_error E e).
  { intros e. destruct (Nat.eqb_spec e (length E)) as [->|].
    - rewrite nth_error_app2, Nat.sub_diag by lia. reflexivity.
    - destruct (Nat.lt_ge_cases e (length E)); [apply nth_error_app1; auto|].
      rewrite (proj2 (nth_error_None E e)) by lia. apply nth_error_None. rewrite app_length. simpl. lia. }
  assert (II : forall F k, (forall v, Permutation (F v) (length E :: v)) -> (k = outl h \/ k = inl t) -> forall e, In e (F (nth k A [])) <->
     exists h' t', nth_error (E ++ [(h, t)]) e = Some (h', t') /\ (k = outl h' \/ k = inl t')).
  { intros F k PF Hk e. rewrite (Permutation_in' eq_refl (PF _)). simpl. rewrite NE, (p_in _ _ Hp).
    destruct (Nat.eqb_spec e (length E)) as [->|Hne].
    - split; [|auto]. intros _. exists h, t. auto.
    - split; [intros [X|X]; [congruence|exact X]|auto]. }
  constructor.
  - intros k. rewrite N. destruct (k =? inl t); [|destruct (k =? outl h)].
    + eapply Permutation_NoDup; [symmetry; apply P2|apply ND].
    + eapply Permutation_NoDup; [symmetry; apply P1|apply ND].
    + apply (p_nodup _ _ Hp).
  - intros k e. rewrite N. destruct (Nat.eqb_spec k (inl t)) as [->|Hk1]; [|destruct (Nat.eqb_spec k (outl h)) as [->|Hk2]]; auto.
    rewrite NE, (p_in _ _ Hp). destruct (Nat.eqb_spec e (length E)) as [->|Hne]; [|reflexivity].
    split; intros (h' & t' & Ee & Hor).
    + assert (length E < length E) by (apply nth_error_Some; congruence). lia.
    + inversion Ee; subst. destruct Hor; congruence.
  - intros e h' t'. rewrite NE, !upd_length. destruct (e =? length E); intros Ee; [inversion Ee; subst; auto|].
    apply (p_bound _ _ Hp e); auto.
Qed.

Lemma at_nth (g : graph) p (f : nat -> nat) (q : nat -> list nat) h F :
  (forall u v, f u = f v -> u = v) ->
  (forall v, v < pl_n p -> nth (f v) (abs g) [] = q v) -> h < pl_n p ->
  forall v, v < pl_n p -> (if f v =? f h then F (nth (f h) (abs g) []) else nth (f v) (abs g) []) = at_ q h (F (q h)) v.
Proof.
  intros Hi Hq Hh v Hv. unfold at_. destruct (Nat.eqb_spec v h) as [->|Hne].
  - rewrite Nat.eqb_refl, Hq; auto.
  - destruct (Nat.eqb_spec (f v) (f h)) as [X|_]; [apply Hi in X; congruence|auto].
Qed.

Lemma sim_new_edge g p h t f1 f2 F1 F2 : sim g p -> h < pl_n p -> t < pl_n p ->
  let ed := length (pl_es p) in
  (forall s l, okl s l -> exists s' l', f1 ed s l = Ok (s', l') /\ change s l s' l' (F1 (absl s l))) ->
  (forall s l, okl s l -> exists s' l', f2 ed s l = Ok (s', l') /\ change s l s' l' (F2 (absl s l))) ->
  (forall v, Permutation (F1 v) (ed :: v)) -> (forall v, Permutation (F2 v) (ed :: v)) ->
  exists g', (g1 <- on_list (mkG (g_lists g) (g_edges g ++ [(h, t)]) (g_store g)) (outl h) (f1 (length (g_edges g))) ;;
              on_list g1 (inl t) (f2 (length (g_edges g)))) = Ok g' /\
    sim g' (mkP (pl_n p) (at_ (pl_out p) h (F1 (pl_out p h))) (at_ (pl_in p) t (F2 (pl_in p t))) (pl_es p ++ [(h, t)])).
Proof.
  intros [Hw Hp Hl He Ho Hi] Hh Ht ed H1 H2 P1 P2.
  assert (Bh : outl h < length (g_lists g)) by (unfold outl; lia).
  assert (Bt : inl t < length (g_lists g)) by (unfold inl; lia).
  unfold ed in *. rewrite <- He in H1, H2, P1, P2.
  destruct (new_edge_ok g h t f1 f2 F1 F2 Hw Bh Bt H1 H2) as (g' & Eg & Wg & Ee & Ag). exists g'. split; [exact Eg|].
  assert (N : forall k, nth k (abs g') [] = if k =? inl t then F2 (nth (inl t) (abs g) []) else if k =? outl h then F1 (nth (outl h) (abs g) []) else nth k (abs g) []).
  { intros k. rewrite Ag, nth_upd_if by (rewrite upd_length, abs_length; auto). rewrite nth_upd_if by (rewrite abs_length; auto). reflexivity. }
  constructor; simpl; auto.
  - rewrite Ag, Ee. apply pwf_new; auto; rewrite abs_length; auto.
  - rewrite <- abs_length, Ag, !upd_length, abs_length. exact Hl.
  - rewrite Ee, He. reflexivity.
  - intros v Hv. rewrite N. destruct (Nat.eqb_spec (outl v) (inl t)) as [X|_]; [apply out_in_neq in X; destruct X|].
    apply (at_nth g p outl); auto. unfold outl; intros; lia.
  - intros v Hv. rewrite N. destruct (Nat.eqb_spec (inl v) (outl h)) as [X|_]; [symmetry in X; apply out_in_neq in X; destruct X|].
    apply (at_nth g p inl); auto. unfold inl; intros; lia.
Qed.

Lemma nth_error_without {A} (E : list A) ed e : ed < length E ->
  nth_error (firstn ed E ++ skipn (S ed) E) e = nth_error E (if e <? ed then e else S e).
Proof.
  intros H. rewrite <- (firstn_skipn ed E) at 3.
  assert (L : length (firstn ed E) = ed) by (rewrite firstn_length; lia).
  destruct (Nat.ltb_spec e ed).
  - rewrite !nth_error_app1 by lia. reflexivity.
  - rewrite !nth_error_app2 by lia. rewrite L. replace (S e - ed) with (S (e - ed)) by lia.
    remember (skipn ed E) as T. assert (HT : skipn (S ed) E = tl T).
    { subst T. clear. revert E. induction ed; intros [|x E]; simpl; auto. rewrite <- IHed. reflexivity. }
    rewrite HT. destruct T; simpl; auto. destruct (e - ed); reflexivity.
Qed.

Lemma nth_map_nil (f : list nat -> list nat) A k : f [] = [] -> nth k (map f A) [] = f (nth k A []).
Proof. intros H. rewrite <- H at 1. apply map_nth. Qed.

Lemma forget_in ed l e : In e (forget ed l) <-> exists d, In d l /\ d <> ed /\ e = (if ed <? d then d - 1 else d).
Proof.
  unfold forget. rewrite in_map_iff. split.
  - intros (d & E & H). apply drop_in in H. exists d. intuition.
  - intros (d & H1 & H2 & E). exists d. split; [auto|]. apply drop_in. auto.
Qed.

Lemma nodup_forget ed l : NoDup l -> NoDup (forget ed l).
Proof.
  intros H. unfold forget. assert (Hd : NoDup (drop ed l)) by (apply NoDup_filter; auto).
  assert (Hn : forall d, In d (drop ed l) -> d <> ed) by (intros d X; apply drop_in in X; tauto).
  change (NoDup (map (fun d => if ed <? d then d - 1 else d) (drop ed l))).
  induction Hd as [|a t Ha Hd IH]; simpl; constructor.
  - intros X. apply in_map_iff in X. destruct X as (b & Eb & Hb).
    pose proof (Hn a (or_introl eq_refl)). pose proof (Hn b (or_intror Hb)). assert (a <> b) by congruence.
    destruct (Nat.ltb_spec ed a), (Nat.ltb_spec ed b); lia.
  - apply IH. intros d X. apply Hn. right; auto.
Qed.

Lemma pwf_remove A E ed : pwf A E -> ed < length E -> pwf (map (forget ed) A) (firstn ed E ++ skipn (S ed) E).
Proof.
  intros Hp He. constructor.
  - intros k. rewrite nth_map_nil by reflexivity. apply nodup_forget, (p_nodup _ _ Hp).
  - intros k e. rewrite nth_map_nil, forget_in by reflexivity. rewrite nth_error_without by auto. split.
    + intros (d & Hd & Hne & ->). apply (p_in _ _ Hp) in Hd. destruct Hd as (h & t & Ee & Hor). exists h, t. split; auto.
      rewrite <- Ee. f_equal. destruct (Nat.ltb_spec ed d); [destruct (Nat.ltb_spec (d - 1) ed)|destruct (Nat.ltb_spec d ed)]; lia.
    + intros (h & t & Ee & Hor). exists (if e <? ed then e else S e). split; [apply (p_in _ _ Hp); eauto|].
      destruct (Nat.ltb_spec e ed); [destruct (Nat.ltb_spec ed e)|destruct (Nat.ltb_spec ed (S e))]; lia.
  - intros e h t. rewrite nth_error_without, map_length by auto. apply (p_bound _ _ Hp).
Qed.

Lemma put_perm i e v : Permutation (put i e v) (e :: v).
Proof. unfold put. rewrite <- (firstn_skipn i v) at 3. symmetry. apply Permutation_middle. Qed.

Lemma sim_step g p o p' : sim g p -> pl_step p o = Some p' -> exists g', gstep g o = Ok g' /\ sim g' p'.
Proof.
  intros HS Hst. destruct o; simpl in Hst.
  - (* addVertex *)
    inversion Hst; subst p'. clear Hst. destruct HS as [Hw Hp Hl He Ho Hi]. eexists. split; [reflexivity|].
    assert (Ha : abs (addVertex g) = abs g ++ [[]; []]) by (unfold abs, addVertex; simpl; rewrite map_app; reflexivity).
    assert (Hla : length (abs g) = 2 * pl_n p) by (rewrite abs_length; auto).
    assert (N : forall k, nth k (abs (addVertex g)) [] = nth k (abs g) []).
    { intros k. rewrite Ha. destruct (Nat.lt_ge_cases k (length (abs g))); [apply app_nth1; auto|].
      rewrite app_nth2, (nth_overflow (abs g)) by lia. destruct (k - length (abs g)) as [|[|[|]]]; reflexivity. }
    constructor; simpl; auto.
    + constructor; simpl.
      * intros k l Hk. destruct (Nat.lt_ge_cases k (length (g_lists g))).
        -- rewrite nth_error_app1 in Hk by auto. apply (f_many _ _ Hw k l Hk).
        -- rewrite nth_error_app2 in Hk by auto. apply nth_error_In in Hk. destruct Hk as [<-|[<-|[]]]; discriminate.
      * intros j k l m Hjk Hj Hk Wl Wm.
        destruct (Nat.lt_ge_cases j (length (g_lists g))).
        2:{ rewrite nth_error_app2 in Hj by auto. apply nth_error_In in Hj. destruct Hj as [<-|[<-|[]]]; discriminate. }
        destruct (Nat.lt_ge_cases k (length (g_lists g))).
        2:{ rewrite nth_error_app2 in Hk by auto. apply nth_error_In in Hk. destruct Hk as [<-|[<-|[]]]; discriminate. }
        rewrite nth_error_app1 in Hj, Hk by auto. apply (f_sep _ _ Hw j k); auto.
    + constructor.
      * intros k. rewrite N. apply (p_nodup _ _ Hp).
      * intros k e. rewrite N. apply (p_in _ _ Hp).
      * intros e h t Ee. rewrite Ha, app_length. pose proof (p_bound _ _ Hp e h t Ee). lia.
    + rewrite app_length. simpl. lia.
    + intros v Hv. rewrite N. unfold at_. destruct (Nat.eqb_spec v (pl_n p)) as [->|]; [apply nth_overflow; unfold outl; lia|apply Ho; lia].
    + intros v Hv. rewrite N. unfold at_. destruct (Nat.eqb_spec v (pl_n p)) as [->|]; [apply nth_overflow; unfold inl; lia|apply Hi; lia].
  - (* addEdge *)
    destruct (Nat.ltb_spec head (pl_n p)); [|discriminate]. destruct (Nat.ltb_spec tail (pl_n p)); [|discriminate].
    simpl in Hst. inversion Hst; subst p'. simpl. unfold addEdge.
    apply (sim_new_edge g p head tail (fun e s l => vf_add s l e) (fun e s l => vf_add s l e)
             (fun v => v ++ [length (pl_es p)]) (fun v => v ++ [length (pl_es p)])); auto.
    + intros s l Hok. apply vf_add_ok; auto.
    + intros s l Hok. apply vf_add_ok; auto.
    + intros v. symmetry. apply Permutation_cons_append.
    + intros v. symmetry. apply Permutation_cons_append.
  - (* insertEdge *)
    destruct (Nat.ltb_spec head (pl_n p)); [|discriminate]. destruct (Nat.ltb_spec tail (pl_n p)); [|discriminate].
    simpl in Hst. inversion Hst; subst p'. simpl. unfold insertEdge.
    apply (sim_new_edge g p head tail (fun e s l => vf_insert s l hi e) (fun e s l => vf_insert s l ti e)
             (put hi (length (pl_es p))) (put ti (length (pl_es p)))); auto.
    + intros s l Hok. apply vf_insert_ok; auto.
    + intros s l Hok. apply vf_insert_ok; auto.
    + apply put_perm.
    + apply put_perm.
  - (* removeEdge *)
    destruct (Nat.ltb_spec ed (length (pl_es p))) as [Hed|]; [|discriminate]. inversion Hst; subst p'. simpl.
    destruct HS as [Hw Hp Hl He Ho Hi]. rewrite <- He in Hed.
    destruct (removeEdge_ok g ed Hw Hp Hed) as (g' & Eg & Wg & Ee & Ag). exists g'. split; [exact Eg|].
    change (abs g' = map (forget ed) (abs g)) in Ag.
    constructor; simpl; auto.
    + rewrite Ag, Ee. apply pwf_remove; auto.
    + rewrite <- abs_length, Ag, map_length, abs_length. exact Hl.
    + rewrite Ee, He. reflexivity.
    + intros v Hv. rewrite Ag, nth_map_nil by reflexivity. rewrite Ho; auto.
    + intros v Hv. rewrite Ag, nth_map_nil by reflexivity. rewrite Hi; auto.
  - (* clearEdges *)
    inversion Hst; subst p'. destruct HS as [Hw Hp Hl He Ho Hi]. simpl. unfold clearEdges.
    destruct (clear_lists_ok (g_lists g) (g_store g) Hw) as (ls & s & Ec & Wc & Ac). rewrite Ec. simpl.
    eexists. split; [reflexivity|].
    assert (N : forall k, nth k (abs (mkG ls [] s)) [] = []).
    { intros k. unfold abs. simpl. rewrite Ac. destruct (nth_in_or_default k (repeat [] (length (g_lists g))) (@nil nat)) as [X|X]; auto.
      apply repeat_spec in X. auto. }
    constructor; simpl; auto.
    + constructor.
      * intros k. rewrite N. constructor.
      * intros k e. rewrite N. split; [intros []|]. intros (h & t & E & _). destruct e; discriminate.
      * intros [|e] h t; discriminate.
    + assert (length ls = length (map (absl s) ls)) by (rewrite map_length; auto). rewrite H, Ac, repeat_length. exact Hl.
  - (* clear *)
    inversion Hst; subst p'. eexists. split; [reflexivity|].
    constructor; simpl; auto.
    + constructor; intros; simpl in *; destruct k; discriminate.
    + constructor; unfold abs; simpl.
      * intros [|k]; constructor.
      * intros k e. destruct k; simpl; (split; [intros []|]; intros (h & t & E & _); destruct e; discriminate).
      * intros [|e] h t; discriminate.
    + intros; lia.
    + intros; lia.
Qed.

Lemma map_get_ok {A B} (f : A -> B) (l : list A) is d : (forall i, In i is -> i < length l) ->
  map_get f l is = Ok (map (fun i => f (nth i l d)) is).
Proof.
  induction is as [|i r IH]; simpl; intros H; auto. rewrite (get_nth l i d) by auto. simpl. rewrite IH by auto. reflexivity.
Qed.

Lemma sim_shows g p : sim g p -> shows g p.
Proof.
  intros [Hw Hp Hl He Ho Hi]. split; [|split].
  - unfold verticesSize. rewrite Hl, Nat.mul_comm. apply Nat.div_mul. discriminate.
  - unfold edgesSize. rewrite He. reflexivity.
  - intros v Hv. assert (Bo : outl v < length (g_lists g)) by (unfold outl; lia). assert (Bi : inl v < length (g_lists g)) by (unfold inl; lia).
    unfold outDegree, inDegree, outEdge, inEdge, outVertices, inVertices.
    rewrite !degree_ok, !elements_ok, Ho, Hi by auto. split; [reflexivity|]. split; [reflexivity|].
    split; [|split; [|split]].
    + intros i e E. rewrite edge_at_ok; auto; rewrite Ho by auto; [|apply nth_error_Some; congruence].
      rewrite (nth_error_nth _ _ 0 E). reflexivity.
    + intros i e E. rewrite edge_at_ok; auto; rewrite Hi by auto; [|apply nth_error_Some; congruence].
      rewrite (nth_error_nth _ _ 0 E). reflexivity.
    + cbn [bind]. rewrite <- He. apply map_get_ok. intros e Hin. rewrite <- Ho in Hin by auto. apply (pwf_lt _ _ _ _ Hp Hin).
    + cbn [bind]. rewrite <- He. apply map_get_ok. intros e Hin. rewrite <- Hi in Hin by auto. apply (pwf_lt _ _ _ _ Hp Hin).
Qed.

Lemma sim_run os : forall g p p', sim g p -> pl_run p os = Some p' -> exists g', grun g os = Ok g' /\ sim g' p'.
Proof.
  induction os as [|o r IH]; simpl; intros g p p' HS Hr.
  - inversion Hr; subst. eauto.
  - destruct (pl_step p o) as [p1|] eqn:E; [|discriminate]. destruct (sim_step _ _ _ _ HS E) as (g1 & -> & S1). simpl. eauto.
Qed.

(** Every allowed sequence of operations, from a graph with any number of vertices, runs without
    undefined behaviour or exception, and the graph then answers as the plain lists do. *)
Theorem graph_lists_are_lists n os p :
  pl_run (pl_new n) os = Some p -> exists g, grun (g_new n) os = Ok g /\ shows g p.
Proof.
  intros H. destruct (sim_run os _ _ _ (sim_new n) H) as (g & E & S). exists g. split; auto. apply sim_shows; auto.
Qed.

(** The two directions mirror one another: [v] occurs among the successors of [u] as often as [u]
    among the predecessors of [v], which is the number of edges from [u] to [v]. *)
Definition edges_between (es : list (nat * nat)) (u v : nat) : nat :=
  length (filter (fun p => (fst p =? u) && (snd p =? v)) es).

Lemma count_map_nodup {A} (d : A) (E : list A) (f : A -> nat) (P : A -> bool) l v :
  NoDup l -> (forall e, In e l <-> e < length E /\ P (nth e E d) = true) ->
  count_occ Nat.eq_dec (map (fun e => f (nth e E d)) l) v = length (filter (fun x => P x && (f x =? v)) E).
Proof.
  intros Hnd Hin.
  assert (X : count_occ Nat.eq_dec (map (fun e => f (nth e E d)) l) v = length (filter (fun e => f (nth e E d) =? v) l)).
  { clear. induction l as [|a t IH]; simpl; auto. destruct (Nat.eq_dec (f (nth a E d)) v) as [->|H].
    - rewrite Nat.eqb_refl. simpl. f_equal. exact IH.
    - apply Nat.eqb_neq in H. rewrite H. exact IH. }
  rewrite X. clear X.
  assert (Y : length (filter (fun x => P x && (f x =? v)) E) = length (filter (fun e => P (nth e E d) && (f (nth e E d) =? v)) (seq 0 (length E)))).
  { clear. assert (M : map (fun e => nth e E d) (seq 0 (length E)) = E).
    { apply nth_error_ext. intros i. rewrite nth_error_map. destruct (Nat.lt_ge_cases i (length E)).
      - rewrite (nth_error_nth' _ 0) by (rewrite seq_length; auto). rewrite seq_nth by auto. simpl. symmetry. apply nth_error_nth'; auto.
      - rewrite (proj2 (nth_error_None E i)), (proj2 (nth_error_None _ i)) by (rewrite ?seq_length; auto). reflexivity. }
    rewrite <- M at 1. generalize (seq 0 (length E)). induction l as [|a t IH]; simpl; auto.
    destruct (P (nth a E d) && (f (nth a E d) =? v)); simpl; auto. }
  rewrite Y. apply Permutation_length. apply NoDup_Permutation.
  - apply NoDup_filter; auto.
  - apply NoDup_filter, seq_NoDup.
  - intros e. rewrite !filter_In, Hin, in_seq, andb_true_iff. simpl. intuition lia.
Qed.

Lemma forallb_pwf g p u v : sim g p -> u < pl_n p -> v < pl_n p ->
  count_occ Nat.eq_dec (map (fun e => snd (nth e (pl_es p) (0, 0))) (pl_out p u)) v = edges_between (pl_es p) u v /\
  count_occ Nat.eq_dec (map (fun e => fst (nth e (pl_es p) (0, 0))) (pl_in p v)) u = edges_between (pl_es p) u v.
Proof.
  intros [Hw Hp Hl He Ho Hi] Hu Hv. rewrite He in Hp. split.
  - unfold edges_between. apply (count_map_nodup (0, 0) (pl_es p) snd (fun p => fst p =? u)).
    + rewrite <- Ho by auto. apply (p_nodup _ _ Hp).
    + intros e. rewrite <- Ho, (p_in _ _ Hp) by auto. split.
      * intros (h & t & Ee & [X|X]).
        -- split; [apply nth_error_Some; congruence|]. rewrite (nth_error_nth _ _ (0, 0) Ee). simpl. apply Nat.eqb_eq. unfold outl in X. lia.
        -- apply out_in_neq in X. destruct X.
      * intros [Hlt Hq]. destruct (nth e (pl_es p) (0, 0)) as [h t] eqn:En. exists h, t. split.
        -- rewrite <- En. apply nth_error_nth'; auto.
        -- left. simpl in Hq. apply Nat.eqb_eq in Hq. congruence.
  - unfold edges_between. rewrite (count_map_nodup (0, 0) (pl_es p) fst (fun p => snd p =? v)).
    + f_equal. apply filter_ext. intros x. apply andb_comm.
    + rewrite <- Hi by auto. apply (p_nodup _ _ Hp).
    + intros e. rewrite <- Hi, (p_in _ _ Hp) by auto. split.
      * intros (h & t & Ee & [X|X]).
        -- symmetry in X. apply out_in_neq in X. destruct X.
        -- split; [apply nth_error_Some; congruence|]. rewrite (nth_error_nth _ _ (0, 0) Ee). simpl. apply Nat.eqb_eq. unfold inl in X. lia.
      * intros [Hlt Hq]. destruct (nth e (pl_es p) (0, 0)) as [h t] eqn:En. exists h, t. split.
        -- rewrite <- En. apply nth_error_nth'; auto.
        -- right. simpl in Hq. apply Nat.eqb_eq in Hq. congruence.
Qed.

Theorem graph_lists_mirror n os p g u v :
  pl_run (pl_new n) os = Some p -> grun (g_new n) os = Ok g -> u < pl_n p -> v < pl_n p ->
  exists outs ins, outVertices g u = Ok outs /\ inVertices g v = Ok ins /\
    count_occ Nat.eq_dec outs v = edges_between (pl_es p) u v /\
    count_occ Nat.eq_dec ins u = edges_between (pl_es p) u v.
Proof.
  intros H Hg Hu Hv. destruct (sim_run os _ _ _ (sim_new n) H) as (g' & E & S).
  assert (g' = g) by congruence. subst g'. destruct (sim_shows _ _ S) as (_ & _ & Sh).
  destruct (Sh u Hu) as (_ & _ & _ & _ & Hout & _). destruct (Sh v Hv) as (_ & _ & _ & _ & _ & Hin).
  do 2 eexists. split; [exact Hout|]. split; [exact Hin|]. apply (forallb_pwf g); auto.
Qed.

(** * removeVertex *)

(** The specification of removing a vertex: its edges go, later vertices are numbered one lower.  The
    edges in [es] are given with their heads and tails, in order. *)
Definition pl_remove_vertex (es : list (nat * nat)) (vd : nat) : list (nat * nat) :=
  map (fun p => ((if vd <? fst p then fst p - 1 else fst p), (if vd <? snd p then snd p - 1 else snd p)))
      (filter (fun p => negb (fst p =? vd) && negb (snd p =? vd)) es).

(** Removing a vertex walks over a list that shrinks meanwhile: with two edges entering the vertex,
    undefined behaviour follows. *)
Theorem remove_vertex_refuted :
  ~ forall n os p g vd, pl_run (pl_new n) os = Some p -> grun (g_new n) os = Ok g -> vd < pl_n p ->
      exists g', removeVertex g vd = Ok g' /\ g_edges g' = pl_remove_vertex (pl_es p) vd.
Proof.
  intros H. set (os := [GEdge 0 2; GEdge 1 2]).
  destruct (H 3 os _ _ 2 eq_refl eq_refl) as (g' & E & _); [simpl; lia|]. vm_compute in E. discriminate.
Qed.

(** With at most one edge in and one out, removing a vertex does what it should. *)
Lemma remove_small g k : gfwf g -> k < length (g_lists g) -> length (nth k (abs g) []) <= 1 ->
  for_each_remove g k = match nth k (abs g) [] with [] => Ok g | e :: _ => removeEdge g e end.
Proof.
  intros Hw Hk Hl. unfold for_each_remove. destruct (nth_error (g_lists g) k) as [l|] eqn:E.
  2:{ apply nth_error_None in E. lia. }
  unfold get. rewrite E. cbn [bind].
  assert (Ha : nth k (abs g) [] = absl (g_store g) l).
  { apply nth_error_nth. unfold abs. rewrite nth_error_map, E. reflexivity. }
  rewrite Ha in *. unfold absl in *. destruct (l_which l) eqn:W; auto.
  destruct (f_many _ _ Hw k l E W). lia.
Qed.

Lemma filter_all {A} (f : A -> bool) l : (forall x, In x l -> f x = true) -> filter f l = l.
Proof. induction l; simpl; intros H; auto. rewrite H by auto. f_equal. auto. Qed.

Lemma filter_without {A} (f : A -> bool) (E : list A) e x : nth_error E e = Some x -> f x = false ->
  filter f (firstn e E ++ skipn (S e) E) = filter f E.
Proof.
  revert e; induction E as [|a t IH]; intros [|e] H Hf; try discriminate.
  - inversion H; subst. simpl. rewrite Hf. reflexivity.
  - change (filter f (a :: (firstn e t ++ skipn (S e) t)) = filter f (a :: t)). cbn [filter]. rewrite (IH e H Hf). reflexivity.
Qed.

Theorem remove_vertex_small_partial n os p g vd :
  pl_run (pl_new n) os = Some p -> grun (g_new n) os = Ok g -> vd < pl_n p ->
  length (pl_in p vd) <= 1 -> length (pl_out p vd) <= 1 ->
  exists g', removeVertex g vd = Ok g' /\ verticesSize g' = pl_n p - 1 /\ g_edges g' = pl_remove_vertex (pl_es p) vd.
Proof.
  intros Hr Hg Hv Hin Hout. destruct (sim_run os _ _ _ (sim_new n) Hr) as (g0 & E0 & HS0).
  assert (g0 = g) by congruence. subst g0. clear E0 Hg Hr.
  set (f := fun p : nat * nat => negb (fst p =? vd) && negb (snd p =? vd)).
  (* removing the edges *)
  assert (Rm : forall g p (q : plain -> nat -> list nat) (k : nat -> nat),
    (forall g p v, sim g p -> v < pl_n p -> nth (k v) (abs g) [] = q p v) ->
    (forall n v, v < n -> k v < 2 * n) ->
    (forall x, k vd = outl (fst x) \/ k vd = inl (snd x) -> f x = false) ->
    sim g p -> vd < pl_n p -> length (q p vd) <= 1 ->
    exists g' p', for_each_remove g (k vd) = Ok g' /\ sim g' p' /\ pl_n p' = pl_n p /\ q p' vd = [] /\
      (forall v, length (pl_out p' v) <= length (pl_out p v)) /\ (forall v, pl_in p v = [] -> pl_in p' v = []) /\
      filter f (pl_es p') = filter f (pl_es p)).
  { clear. intros g p q k Hq Hb Hkf HS Hv Hle. pose proof HS as [Hw Hp Hl He Ho Hi].
    rewrite remove_small; auto; [|rewrite Hl; auto|rewrite (Hq g p); auto].
    rewrite (Hq g p) by auto. destruct (q p vd) as [|e r] eqn:Eq.
    - exists g, p. auto 10.
    - simpl in Hle. destruct r; [|simpl in Hle; lia].
      assert (Hie : In e (nth (k vd) (abs g) [])) by (rewrite (Hq g p), Eq by auto; left; auto).
      assert (Hel : e < length (pl_es p)) by (rewrite <- He; eapply pwf_lt; eauto).
      destruct (sim_step g p (GRemoveEdge e) (mkP (pl_n p) (fun v => forget e (pl_out p v)) (fun v => forget e (pl_in p v))
                  (firstn e (pl_es p) ++ skipn (S e) (pl_es p)))) as (g' & Eg & S'); auto.
      { simpl. apply Nat.ltb_lt in Hel. rewrite Hel. reflexivity. }
      exists g', (mkP (pl_n p) (fun v => forget e (pl_out p v)) (fun v => forget e (pl_in p v))
                  (firstn e (pl_es p) ++ skipn (S e) (pl_es p))).
      split; [exact Eg|]. split; [exact S'|]. split; [reflexivity|]. split; [|split; [|split]].
      + rewrite <- (Hq g' _ vd S') by auto. destruct (removeEdge_ok g e Hw Hp) as (g2 & Eg2 & _ & _ & Ag); [rewrite He; auto|].
        simpl in Eg. rewrite Eg in Eg2. inversion Eg2; subst g2. change (abs g' = map (forget e) (abs g)) in Ag.
        rewrite Ag, nth_map_nil, (Hq g p), Eq by auto. unfold forget. simpl. rewrite Nat.eqb_refl. reflexivity.
      + intros v. cbn [pl_out]. unfold forget. rewrite map_length. apply filter_length_le.
      + intros v X. cbn [pl_in]. rewrite X. reflexivity.
      + apply (p_in _ _ Hp) in Hie. destruct Hie as (h & t & Ee & Hor). rewrite He in Ee.
        cbn [pl_es]. apply (filter_without f _ e (h, t)); auto. }
  assert (KO : forall x, outl vd = outl (fst x) \/ outl vd = inl (snd x) -> f x = false).
  { intros [h t] [X|X]; simpl in X; unfold f; simpl.
    - replace h with vd by (unfold outl in X; lia). rewrite Nat.eqb_refl. reflexivity.
    - apply out_in_neq in X. destruct X. }
  assert (KI : forall x, inl vd = outl (fst x) \/ inl vd = inl (snd x) -> f x = false).
  { intros [h t] [X|X]; simpl in X; unfold f; simpl.
    - symmetry in X. apply out_in_neq in X. destruct X.
    - replace t with vd by (unfold inl in X; lia). rewrite Nat.eqb_refl, andb_false_r. reflexivity. }
  destruct (Rm g p pl_in inl) as (g1 & p1 & E1 & S1 & N1 & I1 & L1 & _ & F1); auto.
  { intros. apply s_in; auto. }
  { unfold inl; intros; lia. }
  destruct (Rm g1 p1 pl_out outl) as (g2 & p2 & E2 & S2 & N2 & O2 & L2 & I2 & F2); auto.
  { intros. apply s_out; auto. }
  { unfold outl; intros; lia. }
  { lia. }
  { specialize (L1 vd). lia. }
  unfold removeVertex. rewrite E1. cbn [bind]. rewrite E2. cbn [bind]. eexists. split; [reflexivity|].
  destruct S2 as [Hw Hp Hl He Ho Hi]. split.
  - unfold verticesSize, compact_after_vertex; simpl g_lists. rewrite app_length, firstn_length, skipn_length, Hl, N2, N1.
    match goal with |- ?a / 2 = _ => replace a with ((pl_n p - 1) * 2) by lia end. apply Nat.div_mul; discriminate.
  - unfold compact_after_vertex; simpl g_edges. unfold pl_remove_vertex. fold f. rewrite <- F1, <- F2. rewrite He.
    rewrite filter_all; [reflexivity|]. intros [h t] Hx. apply In_nth_error in Hx. destruct Hx as (e & Ee). rewrite <- He in Ee.
    unfold f; simpl. destruct (Nat.eqb_spec h vd) as [->|]; simpl.
    + assert (X : In e (nth (outl vd) (abs g2) [])) by (apply (p_in _ _ Hp); eauto). rewrite Ho, O2 in X by lia. destruct X.
    + destruct (Nat.eqb_spec t vd) as [->|]; simpl; auto.
      assert (X : In e (nth (inl vd) (abs g2) [])) by (apply (p_in _ _ Hp); eauto). rewrite Hi, I2 in X by (auto; lia). destruct X.
Qed.

(** Non-vacuity: a run with insertions in the middle, a self-loop and removals. *)
Definition demo : list gop :=
  [GVertex; GEdge 0 1; GEdge 0 2; GInsert 0 3 1 0; GEdge 3 3; GInsert 0 2 9 0; GRemoveEdge 0; GEdge 2 0; GRemoveEdge 2].
Example demo_runs : exists p, pl_run (pl_new 3) demo = Some p /\ pl_n p = 4 /\ pl_out p 0 = [1; 0; 2] /\
  map (fun e => snd (nth e (pl_es p) (0, 0))) (pl_out p 0) = [3; 2; 2] /\ pl_in p 2 = [2; 0].
Proof. eexists. split; [vm_compute; reflexivity|]. vm_compute. auto. Qed.
Example demo_graph : (g <- grun (g_new 3) demo ;; outVertices g 0) = Ok [3; 2; 2].
Proof. reflexivity. Qed.
Example remove_vertex_case : exists p g g', pl_run (pl_new 3) [GEdge 0 1; GEdge 1 2; GEdge 2 0] = Some p /\
  grun (g_new 3) [GEdge 0 1; GEdge 1 2; GEdge 2 0] = Ok g /\ length (pl_in p 1) = 1 /\ length (pl_out p 1) = 1 /\
  removeVertex g 1 = Ok g' /\ g_edges g' = [(1, 0)].
Proof. do 3 eexists. split; [vm_compute; reflexivity|]. split; [vm_compute; reflexivity|]. vm_compute. auto. Qed.

Print Assumptions graph_lists_are_lists.
Print Assumptions graph_lists_mirror.
Print Assumptions remove_vertex_refuted.
Print Assumptions remove_vertex_small_partial.
