(** Proofs about NFABuilder: what fragments match, in order, and that each operation keeps the
    fragments well formed. *)
From Coq Require Import List NArith ZArith Bool Lia PeanoNat.
From Verif Require Import Base VmModel NfaModel CodegenSpec CodegenLayout RangeSetModel ByteSetModel ByteSetProofs Thm_ByteSet PatModel PatSpec RewriteProofs
  BuildModel BuildSpec.
Import ListNotations.
Open Scope nat_scope.

(** * Looking at graphs *)
Definition ins (g : nfa) (v : nat) : list nat := match nth_error g v with Some x => x.(v_in) | None => [] end.
Definition attr (x : vertex) := (x.(v_trans), x.(v_match), x.(v_label)).
Definition attrs (g : nfa) (v : nat) := option_map attr (nth_error g v).

Lemma enters_attrs g g' v : attrs g' v = attrs g v -> forall b, enters g' v b = enters g v b.
Proof.
  unfold attrs, enters, attr. intros H b. destruct (nth_error g' v) as [x|], (nth_error g v) as [y|]; simpl in H; try discriminate; auto.
  injection H as -> _ _. auto.
Qed.

Lemma outs_none g v : length g <= v -> outs g v = [].
Proof. intros H. unfold outs. apply nth_error_None in H. rewrite H. auto. Qed.
Lemma ins_none g v : length g <= v -> ins g v = [].
Proof. intros H. unfold ins. apply nth_error_None in H. rewrite H. auto. Qed.
Lemma outs_in g v u : In u (outs g v) -> v < length g.
Proof. intros H. destruct (Nat.lt_ge_cases v (length g)); auto. rewrite outs_none in H by auto. easy. Qed.

(** Successor and predecessor lists describe the same edges. *)
Definition sym (g : nfa) : Prop := forall h u, count_occ Nat.eq_dec (ins g u) h = count_occ Nat.eq_dec (outs g h) u.

Lemma addVertex_spec g t : let g' := addVertex g t in
  length g' = S (length g) /\ (forall v, v < length g -> attrs g' v = attrs g v) /\
  attrs g' (length g) = Some (Some t, false, NOLABEL) /\ (forall v, outs g' v = outs g v) /\ (forall v, ins g' v = ins g v).
Proof.
  cbv zeta. unfold addVertex. rewrite app_length. simpl. split; [lia|].
  assert (L : forall v, v < length g -> nth_error (g ++ [mkV (Some t) false 4294967295 [] []]) v = nth_error g v) by (intros; apply nth_error_app1; auto).
  assert (M : nth_error (g ++ [mkV (Some t) false 4294967295 [] []]) (length g) = Some (mkV (Some t) false 4294967295 [] [])).
  { rewrite nth_error_app2 by auto. rewrite Nat.sub_diag. auto. }
  split; [intros v H; unfold attrs; rewrite L; auto|]. split; [unfold attrs; rewrite M; auto|].
  split; intros v; unfold outs, ins; destruct (Nat.lt_trichotomy v (length g)) as [H|[->|H]].
  - rewrite L; auto.
  - rewrite M. assert (E : nth_error g (length g) = None) by (apply nth_error_None; auto). rewrite E. auto.
  - assert (E : nth_error g v = None) by (apply nth_error_None; lia). rewrite E.
    assert (E' : nth_error (g ++ [mkV (Some t) false 4294967295 [] []]) v = None) by (apply nth_error_None; rewrite app_length; simpl; lia).
    rewrite E'. auto.
  - rewrite L; auto.
  - rewrite M. assert (E : nth_error g (length g) = None) by (apply nth_error_None; auto). rewrite E. auto.
  - assert (E : nth_error g v = None) by (apply nth_error_None; lia). rewrite E.
    assert (E' : nth_error (g ++ [mkV (Some t) false 4294967295 [] []]) v = None) by (apply nth_error_None; rewrite app_length; simpl; lia).
    rewrite E'. auto.
Qed.

Lemma addVertex_sym g t : sym g -> sym (addVertex g t).
Proof. intros H h u. destruct (addVertex_spec g t) as (_ & _ & _ & Ho & Hi). rewrite Ho, Hi. apply H. Qed.

Definition spliced (p : nat) (os dst : list nat) : list nat := firstn p os ++ dst ++ skipn p os.

Lemma insertEdge_spec g h t pos : h < length g -> t < length g -> pos <= length (outs g h) ->
  exists g', insertEdge g h t pos = Ok g' /\ length g' = length g /\ (forall v, attrs g' v = attrs g v) /\
    (forall v, outs g' v = if v =? h then spliced pos (outs g h) [t] else outs g v) /\
    (forall v, ins g' v = if v =? t then ins g t ++ [h] else ins g v).
Proof.
  intros Hh Ht Hp. unfold insertEdge, get. destruct (nth_error g h) as [x|] eqn:Ex; [|apply nth_error_None in Ex; lia]. cbn [bind].
  unfold outs in Hp. rewrite Ex in Hp. apply Nat.leb_le in Hp. rewrite Hp.
  set (x' := set_out x _). set (g1 := upd g h x').
  assert (L1 : length g1 = length g) by apply upd_length.
  destruct (nth_error g1 t) as [y|] eqn:Ey; [|apply nth_error_None in Ey; lia]. cbn [bind].
  set (y' := set_in y (v_in y ++ [h])). exists (upd g1 t y'). split; auto. split; [rewrite upd_length; auto|].
  assert (N1 : forall v, nth_error g1 v = if v =? h then Some x' else nth_error g v).
  { intros v. unfold g1. destruct (Nat.eqb_spec v h) as [->|]; [apply nth_upd_same; auto|apply nth_upd_other; auto]. }
  assert (N2 : forall v, nth_error (upd g1 t y') v = if v =? t then Some y' else nth_error g1 v).
  { intros v. destruct (Nat.eqb_spec v t) as [->|]; [apply nth_upd_same; lia|apply nth_upd_other; auto]. }
  assert (Y : attr y = match nth_error g t with Some z => attr z | None => attr y end /\ v_out y = (if t =? h then v_out x' else outs g t) /\ v_in y = ins g t).
  { rewrite N1 in Ey. unfold outs, ins. destruct (Nat.eqb_spec t h) as [E|E]; [subst; injection Ey as <-; rewrite Ex; auto|]. rewrite Ey. auto. }
  destruct Y as (Y1 & Y2 & Y3).
  repeat split; intros v; unfold attrs, outs, ins; rewrite N2, ?N1.
  - destruct (Nat.eqb_spec v t) as [->|].
    + simpl. change (attr y') with (attr y). destruct (nth_error g t) eqn:E; [simpl; rewrite Y1; auto|apply nth_error_None in E; lia].
    + destruct (Nat.eqb_spec v h) as [->|]; auto. rewrite Ex. auto.
  - rewrite Ex. destruct (Nat.eqb_spec v t) as [->|].
    + simpl. rewrite Y2. destruct (t =? h); auto.
    + destruct (v =? h); auto.
  - destruct (Nat.eqb_spec v t) as [->|].
    + simpl. rewrite Y3. unfold ins. auto.
    + destruct (Nat.eqb_spec v h) as [->|]; auto. rewrite Ex. auto.
Qed.

Lemma count_spliced p os dst x : count_occ Nat.eq_dec (spliced p os dst) x = count_occ Nat.eq_dec os x + count_occ Nat.eq_dec dst x.
Proof. unfold spliced. rewrite !count_occ_app. rewrite <- (firstn_skipn p os) at 3. rewrite count_occ_app. lia. Qed.

Lemma in_spliced p os dst x : In x (spliced p os dst) <-> In x os \/ In x dst.
Proof. unfold spliced. rewrite !in_app_iff. rewrite <- (firstn_skipn p os) at 3. rewrite in_app_iff. tauto. Qed.

Lemma insert_sym g g' h t pos : sym g -> 
    (forall v, outs g' v = if v =? h then spliced pos (outs g h) [t] else outs g v) ->
    (forall v, ins g' v = if v =? t then ins g t ++ [h] else ins g v) -> sym g'.
Proof.
  intros S Ho Hi a b. rewrite Ho, Hi.
  destruct (Nat.eqb_spec a h) as [->|Ha], (Nat.eqb_spec b t) as [->|Hb]; rewrite ?count_spliced, ?count_occ_app.
  - simpl. destruct (Nat.eq_dec h h), (Nat.eq_dec t t); try congruence; rewrite S; lia.
  - simpl. destruct (Nat.eq_dec t b); try congruence; rewrite S; lia.
  - simpl. destruct (Nat.eq_dec h a); try congruence; rewrite S; lia.
  - apply S.
Qed.

Lemma spliced_step p os a dst : p <= length os -> spliced (S p) (spliced p os [a]) dst = spliced p os (a :: dst).
Proof.
  intros H. unfold spliced. 
  assert (L : length (firstn p os) = p) by (apply firstn_length_le; auto).
  replace (S p) with (length (firstn p os ++ [a])) at 1 2 by (rewrite app_length; simpl; lia).
  assert (E : firstn p os ++ [a] ++ skipn p os = (firstn p os ++ [a]) ++ skipn p os) by (rewrite <- app_assoc; auto).
  rewrite E, firstn_app, Nat.sub_diag, firstn_all, skipn_app, Nat.sub_diag, skipn_all. simpl. rewrite app_nil_r, <- app_assoc. auto.
Qed.

Lemma insertEdges_spec v : forall dst g pos, v < length g -> Forall (fun d => d < length g) dst -> pos <= length (outs g v) -> sym g ->
  exists g', insertEdges g v dst pos = Ok g' /\ length g' = length g /\ (forall u, attrs g' u = attrs g u) /\
    (forall u, outs g' u = if u =? v then spliced pos (outs g v) dst else outs g u) /\ sym g'.
Proof.
  induction dst as [|d dst IH]; intros g pos Hv Hd Hp S; cbn [insertEdges].
  - exists g. repeat split; auto. intros u. destruct (Nat.eqb_spec u v) as [->|]; auto. unfold spliced. simpl. rewrite firstn_skipn. auto.
  - inversion Hd as [|? ? Hd1 Hd2]; subst. destruct (insertEdge_spec g v d pos Hv Hd1 Hp) as (g1 & -> & L1 & A1 & O1 & I1). cbn [bind].
    destruct (IH g1 (Datatypes.S pos)) as (g2 & -> & L2 & A2 & O2 & S2).
    + lia.
    + eapply Forall_impl; [|exact Hd2]. simpl. intros; lia.
    + rewrite O1, Nat.eqb_refl. unfold spliced. rewrite !app_length, firstn_length_le, skipn_length by auto. simpl. lia.
    + eapply insert_sym; eauto.
    + exists g2. split; auto. split; [lia|]. split; [intros; rewrite A2; auto|]. split; auto.
      intros u. rewrite O2, !O1. rewrite Nat.eqb_refl. destruct (u =? v); auto. apply spliced_step; auto.
Qed.

Definition exit_of (out : list (nat * nat)) (v : nat) : option nat := option_map snd (find (fun p => fst p =? v) out).

Lemma exit_of_cons u p out v : exit_of ((u, p) :: out) v = if u =? v then Some p else exit_of out v.
Proof. unfold exit_of. simpl. destruct (u =? v); auto. Qed.
Lemma exit_of_app a b v : exit_of (a ++ b) v = match exit_of a v with Some p => Some p | None => exit_of b v end.
Proof. induction a as [|[u p] a IH]; auto. simpl app. rewrite !exit_of_cons. destruct (u =? v); auto. Qed.
Lemma exit_of_none out v : exit_of out v = None <-> ~ In v (map fst out).
Proof.
  induction out as [|[u p] out IH]; [simpl; tauto|]. rewrite exit_of_cons. simpl. destruct (Nat.eqb_spec u v); [split; [discriminate|tauto]|]. rewrite IH. tauto.
Qed.
Lemma exit_of_some out v p : exit_of out v = Some p -> In (v, p) out.
Proof. induction out as [|[u q] out IH]; [discriminate|]. rewrite exit_of_cons. destruct (Nat.eqb_spec u v); [intros [= ->]; left; congruence|right; auto]. Qed.
Lemma exit_of_in out v p : NoDup (map fst out) -> In (v, p) out -> exit_of out v = Some p.
Proof.
  induction out as [|[u q] out IH]; intros ND Hi; [destruct Hi|]. destruct Hi as [H|H]; rewrite exit_of_cons; inversion ND; subst.
  - injection H as -> ->. rewrite Nat.eqb_refl. auto.
  - destruct (Nat.eqb_spec u v) as [->|]; auto. exfalso. apply H2. apply in_map_iff. exists (v, p). auto.
Qed.
Lemma exit_of_shift out k v : exit_of (map (fun q => (fst q, snd q + k)) out) v = option_map (fun p => p + k) (exit_of out v).
Proof. induction out as [|[u q] out IH]; auto. simpl map. rewrite !exit_of_cons. destruct (u =? v); auto. Qed.

Definition stop_of (dst : list nat) (skip : option nat) : nat := match skip with Some s => Nat.min s (length dst) | None => length dst end.

Lemma patch_mid_spec dst skip : forall src g, NoDup (map fst src) -> Forall (fun q => fst q < length g /\ snd q <= length (outs g (fst q))) src ->
  Forall (fun d => d < length g) dst -> sym g ->
  exists g', patch_mid g src dst skip = Ok (g', map (fun q => (fst q, snd q + stop_of dst skip)) src) /\
    length g' = length g /\ (forall u, attrs g' u = attrs g u) /\
    (forall u, outs g' u = match exit_of src u with Some p => spliced p (outs g u) dst | None => outs g u end) /\ sym g'.
Proof.
  induction src as [|[v p] src IH]; intros g ND HS HD S; cbn [patch_mid].
  - exists g. repeat split; auto.
  - inversion HS as [|? ? [H1 H2] H3]; subst. simpl in H1, H2. simpl in ND. inversion ND as [|? ? N1 N2]; subst.
    destruct (insertEdges_spec v dst g p H1 HD H2 S) as (g1 & -> & L1 & A1 & O1 & S1). cbn [bind].
    destruct (IH g1) as (g2 & -> & L2 & A2 & O2 & S2); auto.
    + rewrite Forall_forall in *. intros [u q] Hu. specialize (H3 _ Hu). simpl in *. rewrite L1, O1.
      destruct (Nat.eqb_spec u v) as [->|]; auto. exfalso. apply N1. apply in_map_iff. exists (v, q). auto.
    + eapply Forall_impl; [|exact HD]. simpl; intros; lia.
    + cbn [bind]. exists g2. split; [reflexivity|]. split; [lia|]. split; [intros; rewrite A2; auto|]. split; auto.
      intros u. rewrite O2, O1, exit_of_cons. rewrite (Nat.eqb_sym v u). destruct (Nat.eqb_spec u v) as [->|]; auto.
      apply exit_of_none in N1. rewrite N1. auto.
Qed.

(** * What a fragment matches, in order *)

(** The ways through the vertices [l], with the text itself at position [x], if any. *)
Definition visit (h : nat -> list word) (x : option nat) (w : word) (l : list nat) : list word :=
  match x with
  | None => flat_map h l
  | Some p => flat_map h (firstn p l) ++ w :: flat_map h (skipn p l)
  end.

(** What is left of [w] after entering [v] and leaving the fragment at one of its exits. *)
Fixpoint runs (g : nfa) (ex : nat -> option nat) (w : word) (v : nat) : list word :=
  match w with
  | [] => []
  | b :: r => if enters g v b then visit (runs g ex r) (ex v) r (outs g v) else []
  end.

Definition frag_ways (g : nfa) (f : frag) (w : word) : list word :=
  visit (runs g (exit_of f.(f_out)) w) f.(f_skip) w f.(f_in).

Lemma visit_ext h h' x w l : (forall v, In v l -> h v = h' v) -> visit h x w l = visit h' x w l.
Proof.
  intros H. unfold visit. destruct x as [p|]; [|apply flat_map_ext_in; auto].
  rewrite (flat_map_ext_in h h' (firstn p l)), (flat_map_ext_in h h' (skipn p l)); auto; intros v Hv; apply H;
  rewrite <- (firstn_skipn p l); apply in_or_app; auto.
Qed.

Lemma runs_shorter g ex : forall w v r, In r (runs g ex w v) -> length r < length w.
Proof.
  induction w as [|b w IH]; intros v r; [easy|]. cbn [runs]. destruct (enters g v b); [|easy]. unfold visit. simpl length.
  destruct (ex v) as [p|]; [rewrite in_app_iff; simpl; intros [H|[<-|H]]; [|lia|]|intros H];
  apply in_flat_map in H as (u & _ & H); apply IH in H; lia.
Qed.

Lemma runs_frame g g' ex ex' (R : nat -> Prop) :
  (forall v, R v -> attrs g' v = attrs g v /\ outs g' v = outs g v /\ ex' v = ex v /\ forall u, In u (outs g v) -> R u) ->
  forall w v, R v -> runs g' ex' w v = runs g ex w v.
Proof.
  intros H. induction w as [|b w IH]; intros v Hv; auto. cbn [runs]. destruct (H v Hv) as (A & O & E & C).
  rewrite (enters_attrs _ _ _ A). destruct (enters g v b); auto. rewrite O, E. apply visit_ext. auto.
Qed.

Lemma firstn_spliced p s os d : p <= length os -> s <= length d -> firstn (p + s) (spliced p os d) = firstn p os ++ firstn s d.
Proof.
  intros H K. unfold spliced. rewrite firstn_app, firstn_length_le by auto. replace (p + s - p) with s by lia.
  rewrite firstn_all2 by (rewrite firstn_length_le; lia). rewrite firstn_app. replace (s - length d) with 0 by lia. simpl. rewrite app_nil_r. auto.
Qed.
Lemma skipn_spliced p s os d : p <= length os -> s <= length d -> skipn (p + s) (spliced p os d) = skipn s d ++ skipn p os.
Proof.
  intros H K. unfold spliced. rewrite skipn_app, firstn_length_le by auto. replace (p + s - p) with s by lia.
  rewrite skipn_all2 by (rewrite firstn_length_le; lia). simpl. rewrite skipn_app. replace (s - length d) with 0 by lia. auto.
Qed.

Definition skip_le (s : option nat) (l : list nat) : Prop := match s with Some k => k <= length l | None => True end.

(** Substituting what follows for the exit. *)
Lemma visit_subst (h h' : nat -> list word) (F : word -> list word) p s d os r :
  (forall u, In u os -> h' u = flat_map F (h u)) -> F r = visit h' s r d -> p <= length os -> skip_le s d ->
  visit h' (option_map (Nat.add p) s) r (spliced p os d) = flat_map F (visit h (Some p) r os).
Proof.
  intros H HF Hp Hs. cbn [visit]. rewrite flat_map_app. simpl flat_map. rewrite HF, !flat_map_flat_map.
  assert (E1 : flat_map (fun x => flat_map F (h x)) (firstn p os) = flat_map h' (firstn p os)).
  { apply flat_map_ext_in. intros u Hu. symmetry. apply H. rewrite <- (firstn_skipn p os). apply in_or_app; auto. }
  assert (E2 : flat_map (fun x => flat_map F (h x)) (skipn p os) = flat_map h' (skipn p os)).
  { apply flat_map_ext_in. intros u Hu. symmetry. apply H. rewrite <- (firstn_skipn p os). apply in_or_app; auto. }
  rewrite E1, E2. destruct s as [s|]; simpl option_map; unfold visit.
  - simpl in Hs. rewrite firstn_spliced, skipn_spliced, !flat_map_app by auto. rewrite <- !app_assoc. auto.
  - unfold spliced. rewrite !flat_map_app. auto.
Qed.

Lemma runs_subst g g' ex ex' (R : nat -> Prop) d s :
  skip_le s d ->
  (forall v, R v -> attrs g' v = attrs g v /\ (forall u, In u (outs g v) -> R u) /\
     match ex v with
     | None => outs g' v = outs g v /\ ex' v = None
     | Some p => outs g' v = spliced p (outs g v) d /\ p <= length (outs g v) /\ ex' v = option_map (Nat.add p) s
     end) ->
  forall w v, R v -> runs g' ex' w v = flat_map (fun r => visit (runs g' ex' r) s r d) (runs g ex w v).
Proof.
  intros Hs H. induction w as [|b w IH]; intros v Hv; auto. cbn [runs]. destruct (H v Hv) as (A & C & E).
  rewrite (enters_attrs _ _ _ A). destruct (enters g v b); auto. destruct (ex v) as [p|].
  - destruct E as (-> & Hp & ->). apply visit_subst; auto.
  - destruct E as (-> & ->). unfold visit. rewrite flat_map_flat_map. apply flat_map_ext_in. intros u Hu. rewrite IH by auto. apply flat_map_ext_in. auto.
Qed.

(** * Well formed fragments *)
Inductive from (g : nfa) (l : list nat) : nat -> Prop :=
| from_in v : In v l -> from g l v
| from_step v u : from g l v -> In u (outs g v) -> from g l u.

Inductive toward (g : nfa) (l : list nat) : nat -> Prop :=
| toward_in v : In v l -> toward g l v
| toward_step v u : In u (outs g v) -> toward g l u -> toward g l v.

Lemma toward_mono g g' l l' : (forall v u, In u (outs g v) -> In u (outs g' v)) -> (forall v, In v l -> toward g' l' v) -> forall v, toward g l v -> toward g' l' v.
Proof. intros H K v F. induction F; [auto|]. eapply toward_step; eauto. Qed.

(** If there is just one entry, no state but an exit leads to it and nowhere else. *)
Definition only_entry (g : nfa) (lo hi : nat) (f : frag) : Prop := forall d c, (forall i, In i (f_in f) -> i = d) -> lo <= c < hi -> ~ In c (map fst (f_out f)) ->
  In d (outs g c) -> exists d', In d' (outs g c) /\ d' <> d.

Record frag_ok (g : nfa) (lo hi : nat) (f : frag) : Prop := {
  fo_in : forall v, In v (f_in f) -> lo <= v < hi;
  fo_out : forall v p, In (v, p) (f_out f) -> lo <= v < hi /\ p <= length (outs g v);
  fo_nodup : NoDup (map fst (f_out f));
  fo_edge : forall v u, lo <= v < hi -> In u (outs g v) -> lo <= u < hi;
  fo_skip : skip_le (f_skip f) (f_in f);
  fo_in1 : f_in f <> [];
  fo_out1 : f_out f <> [];
  fo_end : forall v, lo <= v < hi -> outs g v = [] -> In v (map fst (f_out f));
  fo_reach : forall v, lo <= v < hi -> from g (f_in f) v;
  fo_attr : forall v, lo <= v < hi -> exists t, attrs g v = Some (Some t, false, NOLABEL) /\ trans_ok t;
  fo_live : forall v, lo <= v < hi -> toward g (map fst (f_out f)) v;
  fo_zero : only_entry g lo hi f
}.

Lemma from_closed g lo hi f v : (forall v, In v (f_in f) -> lo <= v < hi) -> (forall v u, lo <= v < hi -> In u (outs g v) -> lo <= u < hi) ->
  from g (f_in f) v -> lo <= v < hi.
Proof. intros A B H. induction H; eauto. Qed.

Lemma frag_ok_frame g g' lo hi f : frag_ok g lo hi f -> (forall v, lo <= v < hi -> attrs g' v = attrs g v /\ outs g' v = outs g v) -> frag_ok g' lo hi f.
Proof.
  intros [A B C D E F G H I J T Z] K. constructor; auto.
  - intros v p Hv. destruct (B v p Hv). destruct (K v) as [_ ->]; auto.
  - intros v u Hv. destruct (K v) as [_ ->]; eauto.
  - intros v Hv. destruct (K v) as [_ ->]; eauto.
  - intros v Hv. specialize (I v Hv). induction I as [v Hi|v u Hf IH Hu]; [constructor; auto|].
    assert (Hv' : lo <= v < hi) by (eapply from_closed; eauto). apply from_step with v; auto. destruct (K v) as [_ ->]; auto.
  - intros v Hv. destruct (K v) as [-> _]; auto.
  - intros v Hv. specialize (T v Hv). induction T as [v Hi|v u Hu Ht IH]; [constructor; auto|].
    apply toward_step with u; [destruct (K v) as [_ ->]; auto|]. apply IH. eauto.
  - intros d c Hd Hc. destruct (K c) as [_ ->]; auto.
Qed.

(** The old part of the graph is not changed. *)
Definition keep (lo : nat) (g g' : nfa) : Prop :=
  length g <= length g' /\ (forall v, v < length g -> attrs g' v = attrs g v) /\ (forall v, v < lo -> outs g' v = outs g v).

Lemma keep_refl lo g : keep lo g g.
Proof. repeat split; auto. Qed.
Lemma keep_trans lo a b c : keep lo a b -> keep lo b c -> keep lo a c.
Proof. intros (A & B & C) (D & E & F). repeat split; [lia| |]; intros v H; [rewrite E by lia; auto|rewrite F, C by lia; auto]. Qed.
Lemma keep_weak lo lo' g g' : lo <= lo' -> keep lo' g g' -> keep lo g g'.
Proof. intros H (A & B & C). repeat split; auto. intros; apply C; lia. Qed.

Definition step_ok (g g' : nfa) (f : frag) : Prop := keep (length g) g g' /\ sym g' /\ frag_ok g' (length g) (length g') f.

(** [bt] builds a fragment that matches [F], or throws exactly if [thr]. *)
Definition builds (bt : nfa -> res (nfa * frag)) (F : word -> list word) (thr : Prop) : Prop :=
  forall g, sym g -> 0 < length g -> match bt g with
    | Ok (g', f) => ~ thr /\ step_ok g g' f /\ forall w, oeq (frag_ways g' f w) (F w)
    | Throw => thr
    | _ => False
    end.

Lemma frag_ways_frame g g' lo hi f w : frag_ok g lo hi f -> (forall v, lo <= v < hi -> attrs g' v = attrs g v /\ outs g' v = outs g v) ->
  frag_ways g' f w = frag_ways g f w.
Proof.
  intros OK K. unfold frag_ways. apply visit_ext. intros v Hv. apply (runs_frame g g' _ _ (fun v => lo <= v < hi)).
  - intros u Hu. destruct (K u Hu). repeat split; auto; eapply (fo_edge _ _ _ _ OK); eauto.
  - apply (fo_in _ _ _ _ OK); auto.
Qed.

Lemma fo_in_lt g lo hi f : frag_ok g lo hi f -> hi <= length g -> Forall (fun d => d < length g) (f_in f).
Proof. intros OK H. apply Forall_forall. intros v Hv. apply (fo_in _ _ _ _ OK) in Hv. lia. Qed.
Lemma fo_out_lt g lo hi f : frag_ok g lo hi f -> hi <= length g -> Forall (fun q => fst q < length g /\ snd q <= length (outs g (fst q))) (f_out f).
Proof. intros OK H. apply Forall_forall. intros [v p] Hv. apply (fo_out _ _ _ _ OK) in Hv. simpl. lia. Qed.

Lemma from_mono g g' l l' : (forall v u, In u (outs g v) -> In u (outs g' v)) -> (forall v, In v l -> from g' l' v) -> forall v, from g l v -> from g' l' v.
Proof. intros H K v F. induction F; [auto|]. eapply from_step; eauto. Qed.

Lemma map_fst_shift k (out : list (nat * nat)) : map fst (map (fun q => (fst q, snd q + k)) out) = map fst out.
Proof. rewrite map_map. apply map_ext. auto. Qed.

(** * Concatenation *)
Lemma stop_skip d s : skip_le s d -> match s with Some k => stop_of d s = k | None => True end.
Proof. destruct s as [k|]; simpl; auto. intros. apply Nat.min_l. auto. Qed.

Lemma firstn_skipn_in {A} k (l : list A) x : In x (firstn k l) \/ In x (skipn k l) <-> In x l.
Proof. rewrite <- in_app_iff, firstn_skipn. tauto. Qed.

Section Concat.
Variables (g : nfa) (lo mid : nat) (f1 f2 : frag).
Hypotheses (S : sym g) (OK1 : frag_ok g lo mid f1) (OK2 : frag_ok g mid (length g) f2) (Hlo : lo <= mid) (Hmid : mid <= length g).

Lemma concat_spec : exists g' f, concatenate g f1 f2 = Ok (g', f) /\ length g' = length g /\ (forall v, attrs g' v = attrs g v) /\
  (forall v, v < lo \/ mid <= v -> outs g' v = outs g v) /\ sym g' /\ frag_ok g' lo (length g) f /\
  forall w, frag_ways g' f w = flat_map (frag_ways g f2) (frag_ways g f1 w).
Proof.
  unfold concatenate.
  destruct (patch_mid_spec (f_in f2) (f_skip f2) (f_out f1) g) as (g' & -> & L & A & O & S').
  { apply (fo_nodup _ _ _ _ OK1). } { eapply fo_out_lt; eauto. } { eapply fo_in_lt; eauto. } { auto. }
  cbn [bind]. set (f := mkF _ _ _). exists g', f. split; [reflexivity|]. split; auto. split; auto.
  assert (R1 : forall v, exit_of (f_out f1) v <> None -> lo <= v < mid).
  { intros v Hv. destruct (exit_of (f_out f1) v) as [p|] eqn:E; [|congruence]. apply exit_of_some in E. apply (fo_out _ _ _ _ OK1) in E. tauto. }
  assert (R2 : forall v, exit_of (f_out f2) v <> None -> mid <= v < length g).
  { intros v Hv. destruct (exit_of (f_out f2) v) as [p|] eqn:E; [|congruence]. apply exit_of_some in E. apply (fo_out _ _ _ _ OK2) in E. tauto. }
  assert (N1 : forall v, ~ (lo <= v < mid) -> exit_of (f_out f1) v = None).
  { intros v Hv. destruct (exit_of (f_out f1) v) eqn:E; auto. exfalso. apply Hv, R1. congruence. }
  assert (N2 : forall v, ~ (mid <= v < length g) -> exit_of (f_out f2) v = None).
  { intros v Hv. destruct (exit_of (f_out f2) v) eqn:E; auto. exfalso. apply Hv, R2. congruence. }
  split. { intros v Hv. rewrite O, N1 by lia. auto. }
  split; auto.
  assert (EX1 : forall v, lo <= v < mid -> exit_of (f_out f) v =
     match exit_of (f_out f1) v with None => None | Some p => option_map (Nat.add p) (f_skip f2) end).
  { intros v Hv. unfold f; simpl. pose proof (stop_skip _ _ (fo_skip _ _ _ _ OK2)) as HS. destruct (f_skip f2) as [s|] eqn:Es.
    - rewrite exit_of_app, exit_of_shift, HS. destruct (exit_of (f_out f1) v); auto. simpl. apply N2. lia.
    - rewrite N2 by lia. destruct (exit_of (f_out f1) v); auto. }
  assert (EX2 : forall v, mid <= v -> exit_of (f_out f) v = exit_of (f_out f2) v).
  { intros v Hv. unfold f; simpl. destruct (f_skip f2) as [s|]; auto. rewrite exit_of_app, exit_of_shift, N1 by lia. auto. }
  assert (SUB : forall v u, In u (outs g v) -> In u (outs g' v)).
  { intros v u H. rewrite O. destruct (exit_of (f_out f1) v); auto. apply in_spliced. auto. }
  assert (IN1 : forall v, In v (f_in f1) -> In v (f_in f)).
  { intros v Hv. unfold f; simpl. destruct (f_skip f1); auto. rewrite !in_app_iff. apply firstn_skipn_in with (k := n) in Hv. tauto. }
  assert (INn : forall v, In v (f_in f) -> In v (f_in f1) \/ In v (f_in f2)).
  { intros v Hv. unfold f in Hv; simpl in Hv. destruct (f_skip f1); auto. rewrite !in_app_iff in Hv.
    destruct Hv as [Hv|[Hv|Hv]]; auto; left; apply (firstn_skipn_in n); auto. }
  split.
  - constructor.
    + intros v Hv. destruct (INn v Hv) as [H|H]; [apply (fo_in _ _ _ _ OK1) in H|apply (fo_in _ _ _ _ OK2) in H]; lia.
    + assert (B2 : forall v p, In (v, p) (f_out f2) -> lo <= v < length g /\ p <= length (outs g' v)).
      { intros v p H. apply (fo_out _ _ _ _ OK2) in H. rewrite O, N1 by lia. lia. }
      intros v p Hv. unfold f in Hv; simpl in Hv. destruct (f_skip f2) as [s|] eqn:Es; auto. apply in_app_or in Hv as [Hv|Hv]; auto.
      apply in_map_iff in Hv as ([v' p'] & [= <- <-] & Hv). pose proof (exit_of_in _ _ _ (fo_nodup _ _ _ _ OK1) Hv) as E.
      apply (fo_out _ _ _ _ OK1) in Hv. rewrite O, E. unfold spliced. rewrite !app_length, firstn_length_le, skipn_length by lia.
      pose proof (Nat.le_min_r s (length (f_in f2))). lia.
    + unfold f; simpl. destruct (f_skip f2); [|apply (fo_nodup _ _ _ _ OK2)]. rewrite map_app, map_fst_shift.
      assert (D : forall v, In v (map fst (f_out f1)) -> ~ In v (map fst (f_out f2))).
      { intros v H1 H2. apply in_map_iff in H1 as ([a p] & <- & H1). apply in_map_iff in H2 as ([b q] & E & H2). simpl in *. subst b.
        apply (fo_out _ _ _ _ OK1) in H1. apply (fo_out _ _ _ _ OK2) in H2. lia. }
      pose proof (fo_nodup _ _ _ _ OK1) as ND1. pose proof (fo_nodup _ _ _ _ OK2) as ND2. clear - D ND1 ND2.
      induction (map fst (f_out f1)) as [|a l IH]; auto. inversion ND1; subst. simpl. constructor.
      * rewrite in_app_iff. intros [|]; auto. eapply D; eauto. left; auto.
      * apply IH; auto. intros; apply D; right; auto.
    + intros v u Hv Hu. rewrite O in Hu. destruct (exit_of (f_out f1) v) as [p|] eqn:E.
      * assert (lo <= v < mid) by (apply R1; congruence). apply in_spliced in Hu as [Hu|Hu]; [apply (fo_edge _ _ _ _ OK1) in Hu; lia|apply (fo_in _ _ _ _ OK2) in Hu; lia].
      * destruct (Nat.lt_ge_cases v mid); [apply (fo_edge _ _ _ _ OK1) in Hu; lia|apply (fo_edge _ _ _ _ OK2) in Hu; lia].
    + unfold f; simpl. pose proof (fo_skip _ _ _ _ OK1) as Q1. pose proof (fo_skip _ _ _ _ OK2) as Q2.
      destruct (f_skip f1) as [a|], (f_skip f2) as [b|]; simpl in *; auto. rewrite !app_length, firstn_length_le, skipn_length by auto. lia.
    + intros E. pose proof (fo_in1 _ _ _ _ OK1) as Q. destruct (f_in f1) as [|a l] eqn:El; [congruence|].
      assert (H : In a (f_in f)) by (apply IN1; left; auto). rewrite E in H. easy.
    + unfold f; simpl. pose proof (fo_out1 _ _ _ _ OK2) as Q. destruct (f_skip f2); auto. intros E. apply app_eq_nil in E. tauto.
    + intros v Hv E. assert (Hv' : mid <= v).
      { destruct (Nat.lt_ge_cases v mid) as [Hm|]; auto. exfalso. rewrite O in E. destruct (exit_of (f_out f1) v) as [p|] eqn:Ex.
        - unfold spliced in E. apply app_eq_nil in E as [_ E]. apply app_eq_nil in E as [E _]. exact (fo_in1 _ _ _ _ OK2 E).
        - apply (fo_end _ _ _ _ OK1) in E; [|lia]. apply exit_of_none in Ex. auto. }
      rewrite O, N1 in E by lia. apply (fo_end _ _ _ _ OK2) in E; [|lia]. unfold f; simpl. destruct (f_skip f2); auto.
      rewrite map_app. apply in_or_app. auto.
    + assert (F1 : forall v, lo <= v < mid -> from g' (f_in f) v).
      { intros v Hv. apply (from_mono g g' (f_in f1)); auto; [intros; constructor; auto|apply (fo_reach _ _ _ _ OK1); auto]. }
      intros v Hv. destruct (Nat.lt_ge_cases v mid) as [Hm|Hm]; [apply F1; lia|].
      apply (from_mono g g' (f_in f2)); auto; [|apply (fo_reach _ _ _ _ OK2); lia].
      intros u Hu. pose proof (fo_out1 _ _ _ _ OK1) as Q. destruct (f_out f1) as [|[o p] l] eqn:El; [congruence|].
      assert (Ho : In (o, p) (f_out f1)) by (rewrite El; left; auto).
      pose proof (exit_of_in _ _ _ (fo_nodup _ _ _ _ OK1) Ho) as E. apply (fo_out _ _ _ _ OK1) in Ho.
      apply from_step with o; [apply F1; tauto|]. rewrite O, <- El, E. apply in_spliced. auto.
    + intros v Hv. rewrite A. destruct (Nat.lt_ge_cases v mid); [apply (fo_attr _ _ _ _ OK1); lia|apply (fo_attr _ _ _ _ OK2); lia].
    + assert (T2 : forall v, mid <= v < length g -> toward g' (map fst (f_out f)) v).
      { intros v Hv. apply (toward_mono g g' (map fst (f_out f2))); auto; [|apply (fo_live _ _ _ _ OK2); auto].
        intros u Hu. constructor. unfold f; simpl. destruct (f_skip f2); auto. rewrite map_app. apply in_or_app. auto. }
      intros v Hv. destruct (Nat.lt_ge_cases v mid) as [Hm|Hm]; [|apply T2; lia].
      apply (toward_mono g g' (map fst (f_out f1))); auto; [|apply (fo_live _ _ _ _ OK1); lia].
      intros u Hu. pose proof (fo_in1 _ _ _ _ OK2) as Q. destruct (f_in f2) as [|d l] eqn:El; [congruence|].
      assert (Hd : In d (f_in f2)) by (rewrite El; left; auto). apply toward_step with d.
      * rewrite O. destruct (exit_of (f_out f1) u) as [p|] eqn:E; [apply in_spliced; right; left; auto|]. apply exit_of_none in E. tauto.
      * apply T2. apply (fo_in _ _ _ _ OK2). auto.
    + intros d c Hd Hc Ho Hu. assert (Ed : forall i, In i (f_in f1) -> i = d) by auto.
      assert (D1 : lo <= d < mid). { pose proof (fo_in1 _ _ _ _ OK1) as Q. destruct (f_in f1) as [|i l] eqn:El; [congruence|]. rewrite <- (Ed i (or_introl eq_refl)). apply (fo_in _ _ _ _ OK1). rewrite El. left; auto. }
      assert (Hm : c < mid). { destruct (Nat.lt_ge_cases c mid); auto. rewrite O, N1 in Hu by lia. apply (fo_edge _ _ _ _ OK2) in Hu; lia. }
      destruct (exit_of (f_out f1) c) as [p|] eqn:E.
      * pose proof (fo_in1 _ _ _ _ OK2) as Q. destruct (f_in f2) as [|i l] eqn:El; [congruence|]. assert (Hi : In i (f_in f2)) by (rewrite El; left; auto).
        exists i. split; [rewrite O, E; apply in_spliced; right; left; auto|]. apply (fo_in _ _ _ _ OK2) in Hi. lia.
      * rewrite O, E in *. apply (fo_zero _ _ _ _ OK1 d c); auto; [lia|]. apply exit_of_none. auto.
  - intros w.
    assert (F2 : forall r, visit (runs g' (exit_of (f_out f)) r) (f_skip f2) r (f_in f2) = frag_ways g f2 r).
    { intros r. unfold frag_ways. apply visit_ext. intros v Hv. apply (runs_frame g g' _ _ (fun v => mid <= v < length g)).
      - intros u Hu. split; auto. split; [rewrite O, N1 by lia; auto|]. split; [apply EX2; lia|]. intros x Hx. apply (fo_edge _ _ _ _ OK2) in Hx; auto.
      - apply (fo_in _ _ _ _ OK2); auto. }
    assert (F1 : forall v, lo <= v < mid -> runs g' (exit_of (f_out f)) w v = flat_map (frag_ways g f2) (runs g (exit_of (f_out f1)) w v)).
    { intros v Hv. rewrite (runs_subst g g' (exit_of (f_out f1)) (exit_of (f_out f)) (fun v => lo <= v < mid) (f_in f2) (f_skip f2)); auto.
      - apply flat_map_ext_in. intros; apply F2.
      - apply (fo_skip _ _ _ _ OK2).
      - intros u Hu. split; auto. split; [intros x Hx; apply (fo_edge _ _ _ _ OK1) in Hx; auto|]. rewrite EX1 by auto. rewrite O.
        destruct (exit_of (f_out f1) u) as [p|] eqn:E; auto. repeat split; auto. apply exit_of_some in E. apply (fo_out _ _ _ _ OK1) in E. tauto. }
    unfold frag_ways at 1 3. pose proof (fo_skip _ _ _ _ OK1) as Q1. unfold f at 2 3; simpl. destruct (f_skip f1) as [a|] eqn:Ea.
    + replace (match f_skip f2 with Some b => Some (a + b) | None => None end) with (option_map (Nat.add a) (f_skip f2)) by (destruct (f_skip f2); auto).
      apply visit_subst; auto.
      * intros u Hu. apply F1. apply (fo_in _ _ _ _ OK1); auto.
      * apply (fo_skip _ _ _ _ OK2).
    + unfold visit. rewrite flat_map_flat_map. apply flat_map_ext_in. intros u Hu. apply F1. apply (fo_in _ _ _ _ OK1); auto.
Qed.
End Concat.

(** * Alternation, options and loops *)
Lemma alternate_spec g lo mid f1 f2 : frag_ok g lo mid f1 -> frag_ok g mid (length g) f2 -> lo <= mid -> mid <= length g ->
  frag_ok g lo (length g) (alternate f1 f2) /\ forall w, oeq (frag_ways g (alternate f1 f2) w) (frag_ways g f1 w ++ frag_ways g f2 w).
Proof.
  intros OK1 OK2 Hlo Hmid.
  assert (N1 : forall v, ~ (lo <= v < mid) -> exit_of (f_out f1) v = None).
  { intros v Hv. destruct (exit_of (f_out f1) v) eqn:E; auto. exfalso. apply exit_of_some in E. apply (fo_out _ _ _ _ OK1) in E. tauto. }
  assert (N2 : forall v, ~ (mid <= v < length g) -> exit_of (f_out f2) v = None).
  { intros v Hv. destruct (exit_of (f_out f2) v) eqn:E; auto. exfalso. apply exit_of_some in E. apply (fo_out _ _ _ _ OK2) in E. tauto. }
  split.
  - constructor; unfold alternate; cbn [f_in f_out f_skip].
    + intros v Hv. apply in_app_or in Hv as [H|H]; [apply (fo_in _ _ _ _ OK1) in H|apply (fo_in _ _ _ _ OK2) in H]; lia.
    + intros v p Hv. apply in_app_or in Hv as [H|H]; [apply (fo_out _ _ _ _ OK1) in H|apply (fo_out _ _ _ _ OK2) in H]; lia.
    + rewrite map_app.
      assert (D : forall v, In v (map fst (f_out f1)) -> ~ In v (map fst (f_out f2))).
      { intros v H1 H2. apply in_map_iff in H1 as ([a p] & <- & H1). apply in_map_iff in H2 as ([b q] & E & H2). simpl in *. subst b.
        apply (fo_out _ _ _ _ OK1) in H1. apply (fo_out _ _ _ _ OK2) in H2. lia. }
      pose proof (fo_nodup _ _ _ _ OK1) as ND1. pose proof (fo_nodup _ _ _ _ OK2) as ND2. clear - D ND1 ND2.
      induction (map fst (f_out f1)) as [|a l IH]; auto. inversion ND1; subst. simpl. constructor.
      * rewrite in_app_iff. intros [|]; auto. eapply D; eauto. left; auto.
      * apply IH; auto. intros; apply D; right; auto.
    + intros v u Hv Hu. destruct (Nat.lt_ge_cases v mid); [apply (fo_edge _ _ _ _ OK1) in Hu; lia|apply (fo_edge _ _ _ _ OK2) in Hu; lia].
    + pose proof (fo_skip _ _ _ _ OK1) as Q1. pose proof (fo_skip _ _ _ _ OK2) as Q2.
      destruct (f_skip f1) as [a|], (f_skip f2) as [b|]; simpl in *; auto; rewrite !app_length; lia.
    + intros E. apply app_eq_nil in E as [E _]. exact (fo_in1 _ _ _ _ OK1 E).
    + intros E. apply app_eq_nil in E as [E _]. exact (fo_out1 _ _ _ _ OK1 E).
    + intros v Hv E. rewrite map_app. apply in_or_app. destruct (Nat.lt_ge_cases v mid); [left; apply (fo_end _ _ _ _ OK1)|right; apply (fo_end _ _ _ _ OK2)]; auto; lia.
    + intros v Hv. destruct (Nat.lt_ge_cases v mid).
      * apply (from_mono g g (f_in f1)); auto; [intros; constructor; apply in_or_app; auto|apply (fo_reach _ _ _ _ OK1); lia].
      * apply (from_mono g g (f_in f2)); auto; [intros; constructor; apply in_or_app; auto|apply (fo_reach _ _ _ _ OK2); lia].
    + intros v Hv. destruct (Nat.lt_ge_cases v mid); [apply (fo_attr _ _ _ _ OK1)|apply (fo_attr _ _ _ _ OK2)]; lia.
    + intros v Hv. rewrite map_app. destruct (Nat.lt_ge_cases v mid).
      * apply (toward_mono g g (map fst (f_out f1))); auto; [intros; constructor; apply in_or_app; auto|apply (fo_live _ _ _ _ OK1); lia].
      * apply (toward_mono g g (map fst (f_out f2))); auto; [intros; constructor; apply in_or_app; auto|apply (fo_live _ _ _ _ OK2); lia].
    + intros d c Hd _ _ _. exfalso. cbn [f_in] in Hd. pose proof (fo_in1 _ _ _ _ OK1) as Q1. pose proof (fo_in1 _ _ _ _ OK2) as Q2.
      destruct (f_in f1) as [|i l] eqn:E1; [congruence|]. destruct (f_in f2) as [|i' l'] eqn:E2; [congruence|].
      assert (I1 : lo <= i < mid) by (apply (fo_in _ _ _ _ OK1); rewrite E1; left; auto). assert (I2 : mid <= i' < length g) by (apply (fo_in _ _ _ _ OK2); rewrite E2; left; auto).
      assert (i = d) by (apply Hd; left; auto). assert (i' = d) by (apply Hd; apply in_or_app; right; left; auto). lia.
  - intros w.
    assert (R1 : forall w v, In v (f_in f1) -> runs g (exit_of (f_out (alternate f1 f2))) w v = runs g (exit_of (f_out f1)) w v).
    { intros w' v Hv. apply (runs_frame g g _ _ (fun v => lo <= v < mid)); [|apply (fo_in _ _ _ _ OK1); auto].
      intros u Hu. repeat split; auto; try (eapply (fo_edge _ _ _ _ OK1); eauto).
      unfold alternate; cbn [f_out]. rewrite exit_of_app. destruct (exit_of (f_out f1) u) eqn:E; auto. apply N2. lia. }
    assert (R2 : forall w v, In v (f_in f2) -> runs g (exit_of (f_out (alternate f1 f2))) w v = runs g (exit_of (f_out f2)) w v).
    { intros w' v Hv. apply (runs_frame g g _ _ (fun v => mid <= v < length g)); [|apply (fo_in _ _ _ _ OK2); auto].
      intros u Hu. repeat split; auto; try (eapply (fo_edge _ _ _ _ OK2); eauto).
      unfold alternate; cbn [f_out]. rewrite exit_of_app, N1 by lia. auto. }
    unfold frag_ways. set (h := runs g (exit_of (f_out (alternate f1 f2))) w) in *.
    rewrite <- (visit_ext h _ (f_skip f1) w (f_in f1)) by (intros v Hv; apply R1; auto).
    rewrite <- (visit_ext h _ (f_skip f2) w (f_in f2)) by (intros v Hv; apply R2; auto).
    unfold alternate; cbn [f_in f_skip]. pose proof (fo_skip _ _ _ _ OK1) as Q1. pose proof (fo_skip _ _ _ _ OK2) as Q2.
    destruct (f_skip f1) as [a|]; [|destruct (f_skip f2) as [b|]]; unfold visit; simpl in Q1, Q2.
    + rewrite firstn_app, skipn_app. replace (a - length (f_in f1)) with 0 by lia. simpl. rewrite app_nil_r, flat_map_app.
      destruct (f_skip f2) as [b|]; [|rewrite <- app_assoc; apply oeq_refl].
      apply oeq_sym. rewrite <- (firstn_skipn b (f_in f2)) at 3. rewrite flat_map_app.
      pose proof (oeq_dup (flat_map h (firstn a (f_in f1))) w (flat_map h (skipn a (f_in f1)) ++ flat_map h (firstn b (f_in f2))) (flat_map h (skipn b (f_in f2)))) as D.
      repeat rewrite <- app_assoc in D. repeat rewrite <- app_assoc. simpl in *. repeat rewrite <- app_assoc in D. repeat rewrite <- app_assoc. exact D.
    + rewrite firstn_app, skipn_app. replace (length (f_in f1) + b - length (f_in f1)) with b by lia.
      rewrite firstn_all2, skipn_all2 by lia. rewrite flat_map_app. simpl. rewrite <- app_assoc. apply oeq_refl.
    + rewrite flat_map_app. apply oeq_refl.
Qed.

Lemma optional_spec g lo hi f greedy : frag_ok g lo hi f -> frag_ok g lo hi (optional_frag greedy f) /\
  forall w, oeq (frag_ways g (optional_frag greedy f) w) (opt_ways greedy w (frag_ways g f w)).
Proof.
  intros OK. split.
  - destruct OK as [A B C D E F G H I J T Z]. unfold optional_frag, question, question_ng. destruct greedy; constructor; simpl; auto; try lia.
    destruct (f_skip f) as [s|]; simpl; auto. destruct (length (f_in f) <? s) eqn:Es; simpl; auto.
  - intros w. pose proof (fo_skip _ _ _ _ OK) as Q. unfold frag_ways, opt_ways, optional_frag, question, question_ng. 
    set (h := runs g (exit_of (f_out f)) w). assert (Eh : h = runs g (exit_of (f_out f)) w) by auto.
    destruct greedy; cbn [f_in f_out f_skip]; rewrite <- Eh.
    + destruct (f_skip f) as [s|]; unfold visit; simpl in Q.
      * assert (Es : (length (f_in f) <? s) = false) by (apply Nat.ltb_ge; auto). rewrite Es.
        apply oeq_sym. pose proof (oeq_dup (flat_map h (firstn s (f_in f))) w (flat_map h (skipn s (f_in f))) []) as D.
        rewrite <- app_assoc. simpl. rewrite app_nil_r in D. exact D.
      * rewrite firstn_all, skipn_all. simpl. apply oeq_refl.
    + unfold visit. simpl. destruct (f_skip f) as [s|]; [|apply oeq_refl].
      apply oeq_sym. rewrite <- (firstn_skipn s (f_in f)) at 3. rewrite flat_map_app.
      apply (oeq_dup [] w (flat_map h (firstn s (f_in f))) (flat_map h (skipn s (f_in f)))).
Qed.

Section Plus.
Variables (g : nfa) (lo : nat) (f : frag) (greedy : bool).
Hypotheses (S : sym g) (OK : frag_ok g lo (length g) f).

Lemma plus_spec : exists g' f', plus g f greedy = Ok (g', f') /\ length g' = length g /\ (forall v, attrs g' v = attrs g v) /\
  (forall v, v < lo -> outs g' v = outs g v) /\ sym g' /\ frag_ok g' lo (length g) f' /\
  forall w, frag_ways g' f' w = plus_ways (frag_ways g f) greedy w.
Proof.
  unfold plus, patch_pre, patch_post.
  set (s := Some (if greedy then length (f_in f) else 0)).
  replace (if greedy then patch_mid g (f_out f) (f_in f) (Some (length (f_in f))) else patch_mid g (f_out f) (f_in f) (Some 0))
    with (patch_mid g (f_out f) (f_in f) s) by (unfold s; destruct greedy; auto).
  destruct (patch_mid_spec (f_in f) s (f_out f) g) as (g' & -> & L & A & O & S').
  { apply (fo_nodup _ _ _ _ OK). } { eapply fo_out_lt; eauto. } { eapply fo_in_lt; eauto. } { auto. }
  cbn [bind]. set (f' := mkF _ _ _). exists g', f'. split; [reflexivity|]. split; auto. split; auto.
  assert (Hs : skip_le s (f_in f)) by (unfold s; destruct greedy; simpl; lia).
  pose proof (stop_skip _ _ Hs) as Hst. unfold s in Hst at 1. 
  assert (N1 : forall v, ~ (lo <= v < length g) -> exit_of (f_out f) v = None).
  { intros v Hv. destruct (exit_of (f_out f) v) eqn:E; auto. exfalso. apply exit_of_some in E. apply (fo_out _ _ _ _ OK) in E. tauto. }
  assert (SUB : forall v u, In u (outs g v) -> In u (outs g' v)).
  { intros v u H. rewrite O. destruct (exit_of (f_out f) v); auto. apply in_spliced. auto. }
  split. { intros v Hv. rewrite O, N1 by lia. auto. }
  split; auto. split.
  - constructor; unfold f'; cbn [f_in f_out f_skip].
    + apply (fo_in _ _ _ _ OK).
    + intros v p Hv. apply in_map_iff in Hv as ([v' p'] & [= <- <-] & Hv). pose proof (exit_of_in _ _ _ (fo_nodup _ _ _ _ OK) Hv) as E.
      apply (fo_out _ _ _ _ OK) in Hv. rewrite O, E. unfold spliced. rewrite !app_length, firstn_length_le, skipn_length by lia.
      destruct greedy; lia.
    + rewrite map_fst_shift. apply (fo_nodup _ _ _ _ OK).
    + intros v u Hv Hu. rewrite O in Hu. destruct (exit_of (f_out f) v) as [p|] eqn:E; [|eapply (fo_edge _ _ _ _ OK); eauto].
      apply in_spliced in Hu as [Hu|Hu]; [eapply (fo_edge _ _ _ _ OK); eauto|apply (fo_in _ _ _ _ OK) in Hu; auto].
    + apply (fo_skip _ _ _ _ OK).
    + apply (fo_in1 _ _ _ _ OK).
    + intros E. apply map_eq_nil in E. exact (fo_out1 _ _ _ _ OK E).
    + intros v Hv E. rewrite map_fst_shift. apply (fo_end _ _ _ _ OK); auto. destruct (outs g v) as [|u l] eqn:Eo; auto.
      exfalso. assert (H : In u (outs g' v)) by (apply SUB; rewrite Eo; left; auto). rewrite E in H. easy.
    + intros v Hv. apply (from_mono g g' (f_in f)); auto; [intros; constructor; auto|apply (fo_reach _ _ _ _ OK); auto].
    + intros v Hv. rewrite A. apply (fo_attr _ _ _ _ OK); auto.
    + intros v Hv. rewrite map_fst_shift. apply (toward_mono g g' (map fst (f_out f))); auto; [intros; constructor; auto|apply (fo_live _ _ _ _ OK); auto].
    + intros d c Hd Hc Ho Hu. cbn [f_in f_out] in *. rewrite map_fst_shift in Ho. apply exit_of_none in Ho. rewrite O, Ho in *. apply (fo_zero _ _ _ _ OK d c); auto. apply exit_of_none. auto.
  - set (h := runs g (exit_of (f_out f))). set (h' := runs g' (exit_of (f_out f'))).
    set (LL := fun r => visit (h' r) s r (f_in f)).
    assert (R : forall w v, In v (f_in f) -> h' w v = flat_map LL (h w v)).
    { intros w v Hv. apply (runs_subst g g' (exit_of (f_out f)) (exit_of (f_out f')) (fun v => lo <= v < length g) (f_in f) s); auto.
      - intros u Hu. split; auto. split; [intros x Hx; eapply (fo_edge _ _ _ _ OK); eauto|]. rewrite O. unfold f'; cbn [f_out]. rewrite exit_of_shift, Hst.
        destruct (exit_of (f_out f) u) as [p|] eqn:E; simpl; auto. repeat split; auto. apply exit_of_some in E. apply (fo_out _ _ _ _ OK) in E. tauto.
      - apply (fo_in _ _ _ _ OK); auto. }
    assert (LE : forall r, LL r = opt_ways greedy r (flat_map (h' r) (f_in f))).
    { intros r. unfold LL, s, visit, opt_ways. destruct greedy; [rewrite firstn_all, skipn_all; auto|simpl; auto]. }
    assert (SK : forall (K : word -> list word) w x, flat_map (fun r => if length r <? length w then K r else x) (frag_ways g f w) =
       match f_skip f with None => flat_map K (flat_map (h w) (f_in f))
       | Some p => flat_map K (flat_map (h w) (firstn p (f_in f))) ++ x ++ flat_map K (flat_map (h w) (skipn p (f_in f))) end).
    { intros K w x. assert (E : forall l, flat_map (fun r => if length r <? length w then K r else x) (flat_map (h w) l) = flat_map K (flat_map (h w) l)).
      { intros l. apply flat_map_ext_in. intros r Hr. apply in_flat_map in Hr as (v & _ & Hr). apply runs_shorter in Hr. apply Nat.ltb_lt in Hr. rewrite Hr. auto. }
      unfold frag_ways, visit. fold h. destruct (f_skip f) as [p|]; auto. rewrite flat_map_app. simpl. rewrite Nat.ltb_irrefl, !E. auto. }
    assert (AG : forall k r, length r <= k -> again (frag_ways g f) greedy k r = LL r).
    { induction k as [|k IH]; intros r Hr.
      - destruct r; [|simpl in Hr; lia]. rewrite LE. cbn [again]. assert (E : flat_map (h' []) (f_in f) = []) by (clear; induction (f_in f); auto).
        rewrite E. unfold opt_ways. destruct greedy; auto.
      - rewrite LE. cbn [again]. unfold opt_ways. 
        assert (E : flat_map (fun r0 => if length r0 <? length r then again (frag_ways g f) greedy k r0 else []) (frag_ways g f r) = flat_map (h' r) (f_in f)); [|rewrite E; auto].
        rewrite SK.
        assert (E2 : flat_map (h' r) (f_in f) = flat_map (again (frag_ways g f) greedy k) (flat_map (h r) (f_in f))).
        { rewrite flat_map_flat_map. apply flat_map_ext_in. intros v Hv. rewrite R by auto. apply flat_map_ext_in. intros y Hy. symmetry. apply IH.
          apply runs_shorter in Hy. lia. }
        rewrite E2. destruct (f_skip f) as [p|]; auto. simpl. rewrite <- flat_map_app, <- flat_map_app, firstn_skipn. auto. }
    intros w. unfold plus_ways.
    rewrite (flat_map_ext_in _ (fun r => if length r <? length w then LL r else [w]) (frag_ways g f w)).
    + rewrite SK. unfold frag_ways. unfold f' at 2 3; cbn [f_skip f_in]. fold h'. 
      assert (E : forall l, incl l (f_in f) -> flat_map (h' w) l = flat_map LL (flat_map (h w) l)).
      { intros l Hl. rewrite flat_map_flat_map. apply flat_map_ext_in. intros v Hv. apply R. auto. }
      unfold visit. destruct (f_skip f) as [p|]; [|apply E, incl_refl].
      rewrite !E; auto; intros v Hv; apply (firstn_skipn_in p); auto.
    + intros r Hr. destruct (length r <? length w) eqn:El; [apply AG; auto|].
      f_equal. unfold frag_ways, visit in Hr. apply Nat.ltb_ge in El.
      assert (NO : forall l, ~ In r (flat_map (h w) l)) by (intros l H; apply in_flat_map in H as (v & _ & H); apply runs_shorter in H; lia).
      destruct (f_skip f) as [p|]; [|exfalso; eapply NO; eauto]. apply in_app_or in Hr as [Hr|[Hr|Hr]]; auto; exfalso; eapply NO; eauto.
Qed.
End Plus.

(** * Combining what builds *)
Lemma builds_ext bt F F' thr : builds bt F thr -> (forall w, oeq (F w) (F' w)) -> builds bt F' thr.
Proof.
  intros H E g S Z. specialize (H g S Z). destruct (bt g) as [[g' f]| | |]; auto. destruct H as (A & B & C). split; auto. split; auto.
  intros w. eapply oeq_trans; [apply C|apply E].
Qed.

Lemma builds_thr bt F thr thr' : builds bt F thr -> (thr <-> thr') -> builds bt F thr'.
Proof. intros H E g S Z. specialize (H g S Z). destruct (bt g) as [[g' f]| | |]; tauto. Qed.

Lemma step_two g g1 f1 g2 f2 : step_ok g g1 f1 -> step_ok g1 g2 f2 ->
  frag_ok g2 (length g) (length g1) f1 /\ keep (length g) g g2 /\ forall w, frag_ways g2 f1 w = frag_ways g1 f1 w.
Proof.
  intros (K1 & S1 & OK1) (K2 & S2 & OK2).
  assert (FR : forall v, length g <= v < length g1 -> attrs g2 v = attrs g1 v /\ outs g2 v = outs g1 v).
  { intros v Hv. destruct K2 as (_ & A & O). split; [apply A|apply O]; lia. }
  split; [eapply frag_ok_frame; eauto|]. split; [|intros; eapply frag_ways_frame; eauto].
  eapply keep_trans; [exact K1|]. eapply keep_weak; [|exact K2]. destruct K1; auto.
Qed.

Lemma builds_alt bt1 bt2 F1 F2 thr1 thr2 : builds bt1 F1 thr1 -> builds bt2 F2 thr2 ->
  builds (fun g => ' (g1, f1) <- bt1 g ;; ' (g2, f2) <- bt2 g1 ;; Ok (g2, alternate f1 f2)) (fun w => F1 w ++ F2 w) (thr1 \/ thr2).
Proof.
  intros H1 H2 g S Z. specialize (H1 g S Z). destruct (bt1 g) as [[g1 f1]| | |]; cbn [bind]; auto. destruct H1 as (T1 & P1 & W1).
  assert (S1 : sym g1) by apply P1. assert (Z1 : 0 < length g1) by (pose proof (proj1 (proj1 P1)); lia). specialize (H2 g1 S1 Z1). destruct (bt2 g1) as [[g2 f2]| | |]; cbn [bind]; auto. destruct H2 as (T2 & P2 & W2).
  destruct (step_two _ _ _ _ _ P1 P2) as (OK1 & K & E1). split; [tauto|].
  destruct (alternate_spec g2 (length g) (length g1) f1 f2 OK1) as (OK & W); [apply P2|apply (proj1 (proj1 P1))|apply (proj1 (proj1 P2))|].
  split; [split; auto; split; auto; apply P2|]. intros w. eapply oeq_trans; [apply W|]. rewrite E1. apply oeq_app; auto.
Qed.

Lemma builds_cat bt1 bt2 F1 F2 thr1 thr2 : builds bt1 F1 thr1 -> builds bt2 F2 thr2 ->
  builds (fun g => ' (g1, f1) <- bt1 g ;; ' (g2, f2) <- bt2 g1 ;; concatenate g2 f1 f2) (fun w => flat_map F2 (F1 w)) (thr1 \/ thr2).
Proof.
  intros H1 H2 g S Z. specialize (H1 g S Z). destruct (bt1 g) as [[g1 f1]| | |]; cbn [bind]; auto. destruct H1 as (T1 & P1 & W1).
  assert (S1 : sym g1) by apply P1. assert (Z1 : 0 < length g1) by (pose proof (proj1 (proj1 P1)); lia). specialize (H2 g1 S1 Z1). destruct (bt2 g1) as [[g2 f2]| | |]; cbn [bind]; auto. destruct H2 as (T2 & P2 & W2).
  destruct (step_two _ _ _ _ _ P1 P2) as (OK1 & K & E1).
  destruct (concat_spec g2 (length g) (length g1) f1 f2) as (g3 & f3 & -> & L & A & O & S3 & OK & W); auto; try apply (proj1 (proj1 P1)); try apply (proj1 (proj1 P2)); try apply P2.
  split; [tauto|]. split.
  - split; [|split; auto; rewrite L; auto]. destruct K as (Ka & Kb & Kc). split; [lia|]. split; [intros; rewrite A; auto|]. intros; rewrite O; auto.
  - intros w. rewrite W, E1. apply oeq_fm; auto.
Qed.

Lemma builds_opt bt F thr greedy : builds bt F thr ->
  builds (fun g => ' (g1, f1) <- bt g ;; Ok (g1, optional_frag greedy f1)) (fun w => opt_ways greedy w (F w)) thr.
Proof.
  intros H g S Z. specialize (H g S Z). destruct (bt g) as [[g1 f1]| | |]; cbn [bind]; auto. destruct H as (T & (K & S1 & OK) & W).
  destruct (optional_spec _ _ _ _ greedy OK) as (OK' & W'). split; auto. split; [split; auto|].
  intros w. eapply oeq_trans; [apply W'|]. apply oeq_opt; auto.
Qed.

Lemma builds_plus bt F thr greedy : builds bt F thr ->
  builds (fun g => ' (g1, f1) <- bt g ;; plus g1 f1 greedy) (plus_ways F greedy) thr.
Proof.
  intros H g S Z. specialize (H g S Z). destruct (bt g) as [[g1 f1]| | |]; cbn [bind]; auto. destruct H as (T & (K & S1 & OK) & W).
  destruct (plus_spec g1 (length g) f1 greedy S1 OK) as (g2 & f2 & -> & L & A & O & S2 & OK2 & W2). split; auto. split.
  - split; [|split; auto; rewrite L; auto]. destruct K as (Ka & Kb & Kc). split; [lia|]. split; [intros; rewrite A; auto|]. intros; rewrite O; auto.
  - intros w. rewrite W2. apply oeq_plus; auto.
Qed.

Lemma builds_copies bt F thr last G thr' k : builds bt F thr -> builds last G thr' ->
  builds (copies bt k last) (fun w => flat_map G (steps F k w)) ((k <> 0 /\ thr) \/ thr').
Proof.
  intros H H'. induction k as [|k IH]; cbn [copies steps].
  - eapply builds_thr; [|split; [intros X; right; exact X|intros [[X _]|X]; [congruence|auto]]].
    eapply builds_ext; [exact H'|]. intros w. simpl. rewrite app_nil_r. apply oeq_refl.
  - eapply builds_thr; [|instantiate (1 := thr \/ ((k <> 0 /\ thr) \/ thr')); tauto || intuition lia].
    eapply builds_ext; [eapply (builds_cat bt (copies bt k last)); eauto|]. intros w. cbn beta. rewrite flat_map_flat_map. apply oeq_refl.
Qed.

Lemma builds_options bt F thr greedy k : builds bt F thr -> builds (options bt greedy k) (opts_ways F greedy (S k)) thr.
Proof.
  intros H. induction k as [|k IH].
  - cbn [options]. eapply builds_ext; [apply builds_opt; eauto|]. intros w. cbn [opts_ways]. apply oeq_opt.
    assert (E : flat_map (fun w0 => [w0]) (F w) = F w) by (induction (F w); simpl; congruence). rewrite E. apply oeq_refl.
  - eapply builds_thr with (thr := thr \/ thr); [|tauto].
    pose proof (builds_opt _ _ _ greedy (builds_cat bt (options bt greedy k) F _ thr thr H IH)) as B.
    intros g S Z. specialize (B g S Z). revert B. cbn [options]. destruct (bt g) as [[g1 f1]| | |]; cbn [bind]; auto.
    destruct (options bt greedy k g1) as [[g2 f2]| | |]; cbn [bind]; intros B; exact B.
Qed.

(** * Leaves *)
Fixpoint row_rest (row : list N) (w : word) : list word :=
  match row with
  | [] => [w]
  | s :: row' => match w with [] => [] | b :: w' => if N.testbit s b then row_rest row' w' else [] end
  end.

Inductive chain (g : nfa) (out : list (nat * nat)) : nat -> list N -> Prop :=
| chain_end v s : exit_of out v = Some 0 -> outs g v = [] -> (forall b, enters g v b = N.testbit s b) -> chain g out v [s]
| chain_step v u s row : exit_of out v = None -> outs g v = [u] -> (forall b, enters g v b = N.testbit s b) -> chain g out u row ->
    chain g out v (s :: row).

Lemma chain_next g out v row u : chain g out v row -> In u (outs g v) -> exists row', chain g out u row' /\ length row = S (length row').
Proof. intros C H. inversion C as [? ? E O|? u' ? row' E O B C']; subst; rewrite O in H; [destruct H|]. destruct H as [<-|[]]. exists row'. auto. Qed.

Lemma chain_length g out v row : chain g out v row -> forall row', chain g out v row' -> length row = length row'.
Proof.
  induction 1 as [v s E O B|v u s row E O B H IH]; intros row' C; inversion C as [? ? E' O'|? u' ? r' E' O' B' C']; subst; auto; try congruence.
  rewrite O in O'. injection O' as <-. simpl. f_equal. auto.
Qed.

Lemma chain_runs g out v row : chain g out v row -> forall w, runs g (exit_of out) w v = row_rest row w.
Proof.
  induction 1 as [v s E O B|v u s row E O B H IH]; intros [|b w]; auto; cbn [runs row_rest]; rewrite B; destruct (N.testbit s b); auto; rewrite E, O; simpl; auto.
  rewrite app_nil_r. auto.
Qed.

Lemma chain_frame g g' out out' (R : nat -> Prop) :
  (forall v, R v -> attrs g' v = attrs g v /\ outs g' v = outs g v /\ exit_of out' v = exit_of out v /\ forall u, In u (outs g v) -> R u) ->
  forall v row, R v -> chain g out v row -> chain g' out' v row.
Proof.
  intros H v row Hv C. revert Hv. induction C as [v s E O B|v u s row E O B C IH]; intros Hv; destruct (H v Hv) as (A & O' & E' & C').
  - constructor; [congruence|congruence|]. intros b. rewrite (enters_attrs _ _ _ A). auto.
  - apply chain_step with u; [congruence|congruence| |].
    + intros b. rewrite (enters_attrs _ _ _ A). auto.
    + apply IH. apply C'. rewrite O. left; auto.
Qed.

Lemma sym_bounded g v u : sym g -> In u (outs g v) -> u < length g.
Proof.
  intros S H. destruct (Nat.lt_ge_cases u (length g)) as [|L]; auto. exfalso.
  apply (count_occ_In Nat.eq_dec) in H. rewrite <- S, ins_none in H by auto. simpl in H. lia.
Qed.
Lemma sym_in g v u : sym g -> In v (ins g u) <-> In u (outs g v).
Proof. intros S. rewrite !(count_occ_In Nat.eq_dec), S. tauto. Qed.

Lemma enters_at g v t : attrs g v = Some (Some t, false, NOLABEL) -> forall b, enters g v b = N.testbit (bytes_of t) b.
Proof.
  unfold attrs, attr, enters. intros H b. destruct (nth_error g v) as [x|]; [|discriminate]. simpl in H. injection H as H _ _. rewrite H.
  symmetry. apply bytes_of_allowed.
Qed.

Lemma full_spec g t : sym g -> trans_ok t -> let g' := addVertex g t in let f := full (length g) in
  step_ok g g' f /\ outs g' (length g) = [] /\ forall w, frag_ways g' f w = row_rest [bytes_of t] w.
Proof.
  intros S T. cbv zeta. destruct (addVertex_spec g t) as (L & A & A' & O & I).
  assert (E : outs (addVertex g t) (length g) = []) by (rewrite O; apply outs_none; auto). split; [|split; auto].
  - split; [|split; [apply addVertex_sym; auto|]].
    + split; [lia|]. split; auto.
    + constructor; cbn [full f_in f_out f_skip].
      * intros v [<-|[]]. lia.
      * intros v p [[= <- <-]|[]]. split; lia.
      * repeat constructor. easy.
      * intros v u Hv. replace v with (length g) by lia. rewrite E. easy.
      * exact Logic.I.
      * discriminate.
      * discriminate.
      * intros v Hv _. simpl. left. lia.
      * intros v Hv. constructor. left. lia.
      * intros v Hv. replace v with (length g) by lia. eauto.
      * intros v Hv. constructor. left. simpl. lia.
      * intros d c _ Hc _. replace c with (length g) by lia. rewrite E. easy.
  - intros w. unfold frag_ways, full; cbn [f_in f_out f_skip visit flat_map]. rewrite app_nil_r. apply chain_runs. constructor; auto.
    + unfold exit_of. simpl. rewrite Nat.eqb_refl. auto.
    + apply enters_at. auto.
Qed.

Lemma row_rest_app a b w : row_rest (a ++ b) w = flat_map (row_rest b) (row_rest a w).
Proof.
  revert w. induction a as [|s a IH]; intros w; simpl; [rewrite app_nil_r; auto|]. destruct w as [|c w]; auto. destruct (N.testbit s c); auto.
Qed.

Lemma addEdge_concat g first prev last : outs g prev = [] -> prev < length g -> 
  addEdge g prev last = (' (g', _) <- concatenate g (mkF [first] [(prev, 0)] None) (full last) ;; Ok g').
Proof.
  intros O L. unfold addEdge, concatenate, full; cbn [f_in f_out f_skip patch_mid insertEdges]. unfold get, outs in *.
  destruct (nth_error g prev) as [x|] eqn:Ex; [|apply nth_error_None in Ex; lia]. cbn [bind]. rewrite O. simpl length.
  destruct (insertEdge g prev last 0) as [g1| | |]; auto.
Qed.

Lemma lit_chain_spec first lo : forall bs g prev, Forall (fun b => (b < 256)%N) bs -> sym g -> lo <= length g -> 
  frag_ok g lo (length g) (mkF [first] [(prev, 0)] None) -> outs g prev = [] ->
  exists g' last, lit_chain g prev bs = Ok (g', last) /\ keep lo g g' /\ sym g' /\ frag_ok g' lo (length g') (mkF [first] [(last, 0)] None) /\
    forall w, frag_ways g' (mkF [first] [(last, 0)] None) w = flat_map (row_rest (map (N.setbit 0) bs)) (frag_ways g (mkF [first] [(prev, 0)] None) w).
Proof.
  induction bs as [|b bs IH]; intros g prev HB S Hlo OK O; cbn [lit_chain].
  - exists g, prev. split; auto. split; [apply keep_refl|]. split; auto. split; auto. intros w. simpl.
    induction (frag_ways _ _ _); simpl; congruence.
  - inversion HB; subst. destruct (full_spec g (TByte b) S) as ((K1 & S1 & OK1) & O1 & W1); [auto|].
    set (g1 := addVertex g (TByte b)) in *.
    assert (Hp : lo <= prev < length g) by (apply (fo_out _ _ _ _ OK) with 0; left; auto).
    assert (FR : forall v, lo <= v < length g -> attrs g1 v = attrs g v /\ outs g1 v = outs g v).
    { intros v Hv. destruct K1 as (_ & Ka & Kb). split; [apply Ka|apply Kb]; lia. }
    assert (OK' : frag_ok g1 lo (length g) (mkF [first] [(prev, 0)] None)) by (eapply frag_ok_frame; eauto).
    rewrite (addEdge_concat g1 first); [|rewrite (proj2 (FR prev Hp)); auto|destruct K1; lia].
    destruct (concat_spec g1 lo (length g) (mkF [first] [(prev, 0)] None) (full (length g))) as (g2 & f2 & E & L2 & A2 & O2 & S2 & OK2 & W2); auto; [apply K1|].
    rewrite E. cbn [bind].
    assert (Ef : f2 = mkF [first] [(length g, 0)] None).
    { unfold concatenate in E. destruct (patch_mid _ _ _ _) as [[? ?]| | |]; try discriminate. cbn [bind full f_in f_out f_skip] in E. injection E as _ <-. auto. }
    subst f2. destruct (IH g2 (length g)) as (g3 & last & -> & K3 & S3 & OK3 & W3); auto.
    { destruct K1; lia. } { rewrite L2; auto. } { rewrite O2 by lia. auto. }
    exists g3, last. split; auto. split; [|split; auto; split; auto].
    + eapply keep_trans; [|exact K3]. eapply keep_trans; [eapply keep_weak; [|exact K1]; auto|]. split; [lia|]. split; [intros; apply A2|intros; apply O2; lia].
    + intros w. rewrite W3, W2, flat_map_flat_map.
      assert (E1 : frag_ways g1 (mkF [first] [(prev, 0)] None) w = frag_ways g (mkF [first] [(prev, 0)] None) w) by (eapply frag_ways_frame; eauto).
      rewrite E1. apply flat_map_ext_in. intros r _. rewrite W1. symmetry. apply (row_rest_app [N.setbit 0 b]).
Qed.

Lemma literal_spec bs : Forall (fun b => (b < 256)%N) bs -> builds (fun g => literal g bs) (row_rest (map (N.setbit 0) bs)) (bs = []).
Proof.
  intros HB g S Z. destruct bs as [|b bs]; cbn [literal]; auto. inversion HB; subst.
  destruct (full_spec g (TByte b) S) as ((K1 & S1 & OK1) & O1 & W1); [auto|].
  destruct (lit_chain_spec (length g) (length g) bs (addVertex g (TByte b)) (length g)) as (g' & last & -> & K' & S' & OK' & W'); auto; [apply K1|].
  cbn [bind]. split; [discriminate|]. split; [split; auto; eapply keep_trans; eauto|].
  intros w. rewrite W'. unfold full in W1. rewrite W1. cbn [map]. rewrite <- row_rest_app. apply oeq_refl.
Qed.

Lemma rawByte_spec b : (b < 256)%N -> builds (fun g => rawByte g b) (row_rest [N.setbit 0 b]) False.
Proof.
  intros H g S Z. unfold rawByte. destruct (full_spec g (TByte b) S H) as (P & _ & W). split; auto. split; auto. intros w. rewrite W. apply oeq_refl.
Qed.

(** ** Classes *)
Record cinv (g : nfa) (lo : nat) (out : list (nat * nat)) (l : list nat) : Prop := {
  ci_sym : sym g;
  ci_lo : 0 < lo <= length g;
  ci_old : forall v u, v < lo -> In u (outs g v) -> u < lo;
  ci_out : forall v p, In (v, p) out -> lo <= v < length g /\ p = 0;
  ci_nodup : NoDup (map fst out);
  ci_chain : forall v, lo <= v < length g -> exists row, chain g out v row;
  ci_edge : forall v u, lo <= v < length g -> In u (outs g v) -> lo <= u < length g;
  ci_reach : forall v, lo <= v < length g -> from g l v;
  ci_attr : forall v, lo <= v < length g -> exists t, attrs g v = Some (Some t, false, NOLABEL) /\ trans_ok t
}.

Lemma bytes_at_ok g v t : attrs g v = Some (Some t, false, NOLABEL) -> bytes_at g v = Ok (bytes_of t).
Proof.
  unfold attrs, attr, bytes_at, get. destruct (nth_error g v) as [x|]; [|discriminate]. simpl. intros [= -> _ _]. auto.
Qed.

Lemma find_bytes_spec g s : forall vs, (forall v, In v vs -> exists t, attrs g v = Some (Some t, false, NOLABEL)) ->
  exists o, find_bytes g vs s = Ok o /\ match o with Some v => In v vs /\ (forall b, enters g v b = N.testbit s b) | None => True end.
Proof.
  induction vs as [|v vs IH]; intros H; cbn [find_bytes]; [eexists; split; auto; simpl; auto|].
  destruct (H v (or_introl eq_refl)) as (t & Ht). rewrite (bytes_at_ok _ _ _ Ht). cbn [bind].
  destruct (N.eqb_spec (bytes_of t) s) as [<-|].
  - eexists; split; [reflexivity|]. split; [left; auto|apply enters_at; auto].
  - destruct IH as (o & -> & Ho); [intros; apply H; right; auto|]. exists o. split; auto. destruct o; auto. destruct Ho; split; auto. right; auto.
Qed.

Lemma walk_back_spec g lo out l : cinv g lo out l -> forall rs tail cur, lo <= tail < length g -> chain g out tail cur ->
  exists tail' rest row, walk_back g tail rs = Ok (tail', rest) /\ lo <= tail' < length g /\ chain g out tail' row /\ rev rest ++ row = rev rs ++ cur /\
     (exists pre, rs = pre ++ rest).
Proof.
  intros CI. induction rs as [|s rs IH]; intros tail cur Ht C; cbn [walk_back].
  - exists tail, [], cur. repeat split; auto; try lia. exists []; auto.
  - unfold get. destruct (nth_error g tail) as [x|] eqn:Ex; [|apply nth_error_None in Ex; lia]. cbn [bind].
    assert (IN : forall h, In h (v_in x) -> lo <= h < length g /\ outs g h = [tail] /\ exit_of out h = None).
    { intros h Hh. assert (Hi : In tail (outs g h)).
      { apply sym_in; [apply CI|]. unfold ins. rewrite Ex. auto. }
      assert (Hr : lo <= h < length g).
      { split; [|eapply outs_in; eauto]. destruct (Nat.lt_ge_cases h lo) as [Hl|]; auto. apply (ci_old _ _ _ _ CI) in Hi; auto. lia. }
      split; auto. destruct (ci_chain _ _ _ _ CI h Hr) as (row & CH). inversion CH as [v s' E O B|v u s' row' E O B C']; subst.
      - rewrite O in Hi. easy.
      - rewrite O in Hi. destruct Hi as [->|[]]. auto. }
    destruct (find_bytes_spec g s (v_in x)) as (o & -> & Ho).
    { intros h Hh. destruct (ci_attr _ _ _ _ CI h (proj1 (IN h Hh))) as (t & ? & _). eauto. }
    cbn [bind]. destruct o as [h|].
    + destruct Ho as (Hh & HB). destruct (IN h Hh) as (Hr & O & E).
      destruct h as [|h]; [pose proof (ci_lo _ _ _ _ CI); lia|].
      destruct (IH (S h) (s :: cur) Hr) as (tail' & rest & row & E' & R1 & R2 & R3 & (pre & R4)); [apply chain_step with tail; auto|].
      exists tail', rest, row. repeat split; auto; try lia. { rewrite R3. simpl. rewrite <- app_assoc. auto. } { exists (s :: pre). simpl. congruence. }
    + exists tail, (s :: rs), cur. repeat split; auto; try lia. exists []; auto.
Qed.

Definition set_ok (s : N) : Prop := s <> 0%N /\ (s < 2 ^ 256)%N.

Lemma getSmallest_set s x : getSmallest s = TSet x -> x = s.
Proof.
  unfold getSmallest. generalize (smallest_loop s all_bytes TyNone 0%N 0%N). intros [[[[] ?] ?]|] E; try discriminate E; injection E; auto.
Qed.

Lemma getSmallest_trans_ok s : set_ok s -> trans_ok (getSmallest s).
Proof.
  intros (H1 & H2). pose proof (getSmallest_ok s) as H. pose proof (getSmallest_set s) as HS. revert H HS. generalize (getSmallest s).
  intros [x|x y|x y|x] H HS; auto. rewrite (HS x eq_refl). split; auto.
Qed.

Lemma high_bits s b : (s < 2 ^ 256)%N -> (256 <= b)%N -> N.testbit s b = false.
Proof. intros H Hb. rewrite <- (N.mod_small s (2 ^ 256)) by auto. apply N.mod_pow2_bits_high. auto. Qed.

Lemma getSmallest_bits s b : set_ok s -> N.testbit (bytes_of (getSmallest s)) b = N.testbit s b.
Proof.
  intros H. rewrite bytes_of_allowed. destruct (N.ltb_spec b 256) as [Hb|Hb]; [apply getSmallest_allowed; auto|].
  rewrite (high_bits s b) by (auto; apply H). pose proof (getSmallest_trans_ok s H) as TO. pose proof (getSmallest_set s) as HS. revert TO HS. generalize (getSmallest s).
  intros [x|x y|x y|x] TO HS; cbn [trans_ok allowed] in *.
  - apply N.eqb_neq. lia.
  - apply orb_false_iff. split; apply N.eqb_neq; lia.
  - apply andb_false_iff. right. apply N.leb_gt. lia.
  - rewrite (HS x eq_refl). apply high_bits; auto. apply H.
Qed.

Lemma exit_of_old out lo hi v : (forall v p, In (v, p) out -> lo <= v < hi /\ p = 0) -> hi <= v -> exit_of out v = None.
Proof. intros H Hv. destruct (exit_of out v) as [p|] eqn:E; auto. apply exit_of_some in E. apply H in E. lia. Qed.

Lemma build_back_spec lo out l0 : forall rs g tail cur, cinv g lo out (l0 ++ [tail]) -> lo <= tail < length g -> chain g out tail cur -> Forall set_ok rs ->
  exists g' tail', build_back g tail rs = Ok (g', tail') /\ keep lo g g' /\ (forall v, v < length g -> outs g' v = outs g v) /\ cinv g' lo out (l0 ++ [tail']) /\ lo <= tail' < length g' /\
    chain g' out tail' (rev rs ++ cur).
Proof.
  induction rs as [|s rs IH]; intros g tail cur CI Ht C HS; cbn [build_back].
  - exists g, tail. split; auto. split; [apply keep_refl|]. split; auto.
  - inversion HS as [|? ? Hs HS']; subst. set (t := getSmallest s). set (head := length g).
    destruct (addVertex_spec g t) as (L & A & A' & O & I). set (g1 := addVertex g t) in *.
    assert (Oh : outs g1 head = []) by (rewrite O; apply outs_none; auto).
    assert (Hh : head < length g1) by (unfold head; lia).
    destruct (insertEdge_spec g1 head tail (length (outs g1 head))) as (g2 & E2 & L2 & A2 & O2 & I2); auto; [lia|].
    assert (Ee : addEdge g1 head tail = Ok g2).
    { rewrite <- E2. unfold addEdge, get, outs. destruct (nth_error g1 head) eqn:En; auto. apply nth_error_None in En. lia. }
    rewrite Ee. cbn [bind].
    assert (OUT : forall v, outs g2 v = if v =? head then [tail] else outs g v).
    { intros v. rewrite O2, Oh. destruct (v =? head); auto. }
    assert (OLD : forall v, v < length g -> attrs g2 v = attrs g v /\ outs g2 v = outs g v).
    { intros v Hv. rewrite A2, A, OUT by auto. destruct (Nat.eqb_spec v head); [unfold head in *; lia|auto]. }
    assert (CF : forall v row, lo <= v < length g -> chain g out v row -> chain g2 out v row).
    { intros v row Hv. apply (chain_frame g g2 out out (fun v => lo <= v < length g)); auto. intros u Hu. destruct (OLD u); [lia|].
      repeat split; auto; eapply (ci_edge _ _ _ _ CI); eauto. }
    assert (Cn : chain g2 out head (s :: cur)).
    { apply chain_step with tail.
      - eapply exit_of_old; [apply (ci_out _ _ _ _ CI)|unfold head; lia].
      - rewrite OUT, Nat.eqb_refl. auto.
      - intros b. rewrite (enters_at g2 head t); [apply getSmallest_bits; auto|]. rewrite A2. exact A'.
      - apply CF; auto. }
    assert (CI2 : cinv g2 lo out (l0 ++ [head])).
    { constructor.
      - eapply insert_sym; [apply addVertex_sym, (ci_sym _ _ _ _ CI)|exact O2|exact I2].
      - pose proof (ci_lo _ _ _ _ CI). lia.
      - intros v u Hv. rewrite OUT. destruct (Nat.eqb_spec v head) as [->|]; [pose proof (ci_lo _ _ _ _ CI); unfold head in Hv; lia|]. apply (ci_old _ _ _ _ CI); auto.
      - intros v p Hv. apply (ci_out _ _ _ _ CI) in Hv. lia.
      - apply (ci_nodup _ _ _ _ CI).
      - intros v Hv. destruct (Nat.eq_dec v head) as [->|Hn]; [eauto|]. assert (Hv' : lo <= v < length g) by (unfold head in *; lia).
        destruct (ci_chain _ _ _ _ CI v Hv') as (row & ?). exists row. auto.
      - intros v u Hv. rewrite OUT. destruct (Nat.eqb_spec v head) as [->|]; [intros [<-|[]]; lia|]. intros Hu. apply (ci_edge _ _ _ _ CI) in Hu; [|unfold head in *; lia]. lia.
      - assert (FM : forall v, from g (l0 ++ [tail]) v -> from g2 (l0 ++ [head]) v).
        { apply from_mono.
          - intros v u Hu. rewrite OUT. destruct (Nat.eqb_spec v head) as [->|]; auto. apply outs_in in Hu. unfold head in Hu. lia.
          - intros v Hv. apply in_app_or in Hv as [Hv|[<-|[]]]; [constructor; apply in_or_app; auto|].
            apply from_step with head; [constructor; apply in_or_app; right; left; auto|]. rewrite OUT, Nat.eqb_refl. left; auto. }
        intros v Hv. destruct (Nat.eq_dec v head) as [->|Hn]; [constructor; apply in_or_app; right; left; auto|].
        apply FM. apply (ci_reach _ _ _ _ CI). unfold head in *; lia.
      - intros v Hv. destruct (Nat.eq_dec v head) as [->|Hn].
        + exists t. rewrite A2. split; [exact A'|]. apply getSmallest_trans_ok. auto.
        + assert (Hv' : lo <= v < length g) by (unfold head in *; lia). destruct (OLD v) as [-> _]; [lia|]. apply (ci_attr _ _ _ _ CI); auto. }
    destruct (IH g2 head (s :: cur) CI2) as (g3 & tail' & -> & K3 & O3 & CI3 & T3 & C3); auto.
    { pose proof (ci_lo _ _ _ _ CI). unfold head. lia. }
    exists g3, tail'. split; auto. split; [|split; [|split; auto; split; auto; simpl; rewrite <- app_assoc; auto]].
    + eapply keep_trans; [|exact K3]. split; [lia|]. split; [intros; apply OLD; auto|]. intros v Hv. apply OLD. pose proof (ci_lo _ _ _ _ CI). lia.
    + intros v Hv. rewrite O3 by lia. apply OLD; auto.
Qed.

Definition rinv (g : nfa) (lo : nat) (f : frag) (rows : list (list N)) : Prop :=
  cinv g lo (f_out f) (f_in f) /\ f_skip f = None /\ (forall v, In v (f_in f) -> lo <= v < length g) /\
  Forall2 (chain g (f_out f)) (f_in f) rows /\ (rows <> [] -> f_out f <> []).

Lemma chain_keep g g' lo out out' l : cinv g lo out l -> (forall v, v < length g -> attrs g' v = attrs g v) -> (forall v, v < length g -> outs g' v = outs g v) ->
  (forall v, v < length g -> exit_of out' v = exit_of out v) ->
  forall v row, lo <= v < length g -> chain g out v row -> chain g' out' v row.
Proof.
  intros CI HA HO HE v row Hv. apply (chain_frame g g' out out' (fun v => lo <= v < length g)); auto.
  intros u Hu. rewrite HA, HO, HE by lia. repeat split; auto; eapply (ci_edge _ _ _ _ CI); eauto.
Qed.

Lemma Forall2_mono {A B} (P Q : A -> B -> Prop) l m : (forall a b, In a l -> P a b -> Q a b) -> Forall2 P l m -> Forall2 Q l m.
Proof. intros H F. induction F; constructor; auto; [apply H; auto; left; auto|]. apply IHF. intros; apply H; auto. right; auto. Qed.

Lemma add_row_spec g lo f rows row : rinv g lo f rows -> row <> [] -> Forall set_ok row ->
  exists g' f', add_row g f (rev row) = Ok (g', f') /\ keep lo g g' /\ rinv g' lo f' (rows ++ [row]).
Proof.
  intros (CI & SK & IR & CH & OE) Hne HS. unfold add_row. destruct (rev row) as [|s rs] eqn:Er.
  { exfalso. apply Hne. rewrite <- (rev_involutive row), Er. auto. }
  assert (Erow : row = rev rs ++ [s]) by (rewrite <- (rev_involutive row), Er; auto).
  assert (HS' : Forall set_ok (s :: rs)) by (rewrite <- Er; apply Forall_rev; auto). inversion HS' as [|? ? Hs Hrs]; subst x l.
  destruct (find_bytes_spec g s (map fst (f_out f))) as (o & -> & Ho).
  { intros v Hv. apply in_map_iff in Hv as ([v' p] & <- & Hv). apply (ci_out _ _ _ _ CI) in Hv. destruct (ci_attr _ _ _ _ CI v') as (t & ? & _); [tauto|]. eauto. }
  cbn [bind]. destruct o as [tail0|].
  - destruct Ho as (Hin & HB). apply in_map_iff in Hin as ([v' p] & Ev & Hv). simpl in Ev. subst v'.
    pose proof (exit_of_in _ _ _ (ci_nodup _ _ _ _ CI) Hv) as Ex. apply (ci_out _ _ _ _ CI) in Hv as (Hr & ->).
    assert (C0 : chain g (f_out f) tail0 [s]).
    { destruct (ci_chain _ _ _ _ CI tail0 Hr) as (row0 & C0). inversion C0; subst; [|congruence]. constructor; auto. }
    destruct (walk_back_spec g lo (f_out f) (f_in f) CI rs tail0 [s] Hr C0) as (tail & rest & row1 & -> & Ht & C1 & E1 & (pre & Ep)). cbn [bind].
    assert (CI' : cinv g lo (f_out f) (f_in f ++ [tail])).
    { destruct CI as [a b c d e f' h i j]. constructor; auto. intros v Hv. apply (from_mono g g (f_in f)); auto. intros; constructor; apply in_or_app; auto. }
    destruct (build_back_spec lo (f_out f) (f_in f) rest g tail row1 CI' Ht C1) as (g' & tail' & -> & K & O & CI2 & T2 & C2).
    { subst rs. apply Forall_app in Hrs. tauto. }
    cbn [bind]. eexists _, _. split; [reflexivity|]. split; auto. unfold rinv; cbn [f_in f_out f_skip]. split; [exact CI2|split; [exact SK|split; [|split]]].
    + intros v Hv. apply in_app_or in Hv as [Hv|[<-|[]]]; [|lia]. apply IR in Hv. destruct K; lia.
    + apply Forall2_app; [|constructor; [|constructor]].
      * eapply Forall2_mono; [|exact CH]. intros v r Hv. apply (chain_keep g g' lo _ _ _ CI); auto. apply K.
      * rewrite Erow, <- E1. exact C2.
    + intros _. destruct (f_out f) eqn:Ef; [|discriminate]. simpl in Ex. discriminate.
  - set (t := getSmallest s). set (tail := length g).
    destruct (addVertex_spec g t) as (L & A & A' & O & I). set (g1 := addVertex g t) in *.
    set (out' := f_out f ++ [(tail, 0)]).
    assert (EXo : forall v, v < length g -> exit_of out' v = exit_of (f_out f) v).
    { intros v Hv. unfold out'. rewrite exit_of_app. destruct (exit_of (f_out f) v); auto. rewrite exit_of_cons.
      destruct (Nat.eqb_spec tail v); [unfold tail in *; lia|auto]. }
    assert (EXn : exit_of (f_out f) tail = None) by (eapply exit_of_old; [apply (ci_out _ _ _ _ CI)|unfold tail; lia]).
    assert (Ct : chain g1 out' tail [s]).
    { constructor.
      - unfold out'. rewrite exit_of_app, EXn, exit_of_cons, Nat.eqb_refl. auto.
      - rewrite O. apply outs_none. unfold tail; lia.
      - intros b. rewrite (enters_at g1 tail t A'). apply getSmallest_bits; auto. }
    assert (CK : forall v r, lo <= v < length g -> chain g (f_out f) v r -> chain g1 out' v r).
    { apply (chain_keep g g1 lo _ _ _ CI); auto. }
    pose proof (ci_lo _ _ _ _ CI) as Hlo.
    assert (CI1 : cinv g1 lo out' (f_in f ++ [tail])).
    { constructor.
      - apply addVertex_sym, (ci_sym _ _ _ _ CI).
      - lia.
      - intros v u Hv. rewrite O. apply (ci_old _ _ _ _ CI); auto.
      - intros v p Hv. unfold out' in Hv. apply in_app_or in Hv as [Hv|[[= <- <-]|[]]]; [apply (ci_out _ _ _ _ CI) in Hv; lia|unfold tail; lia].
      - unfold out'. rewrite map_app. simpl. apply exit_of_none in EXn. pose proof (ci_nodup _ _ _ _ CI) as ND. clear - ND EXn.
        induction (map fst (f_out f)) as [|a l IH]; simpl; [repeat constructor; auto|]. inversion ND; subst. constructor.
        + rewrite in_app_iff. simpl. intros [|[|[]]]; auto. subst. apply EXn. left; auto.
        + apply IH; auto. intros X; apply EXn; right; auto.
      - intros v Hv. destruct (Nat.eq_dec v tail) as [->|]; [eauto|]. destruct (ci_chain _ _ _ _ CI v) as (r & ?); [unfold tail in *; lia|]. exists r. apply CK; auto. unfold tail in *; lia.
      - intros v u Hv. rewrite O. intros Hu. assert (v < length g) by (eapply outs_in; eauto). apply (ci_edge _ _ _ _ CI) in Hu; lia.
      - intros v Hv. destruct (Nat.eq_dec v tail) as [->|]; [constructor; apply in_or_app; right; left; auto|].
        apply (from_mono g g1 (f_in f)); [intros ? ?; rewrite O; auto|intros; constructor; apply in_or_app; auto|]. apply (ci_reach _ _ _ _ CI). unfold tail in *; lia.
      - intros v Hv. destruct (Nat.eq_dec v tail) as [->|]; [exists t; split; [exact A'|apply getSmallest_trans_ok; auto]|].
        rewrite A by (unfold tail in *; lia). apply (ci_attr _ _ _ _ CI). unfold tail in *; lia. }
    destruct (build_back_spec lo out' (f_in f) rs g1 tail [s] CI1) as (g' & tail' & -> & K & O' & CI2 & T2 & C2); auto.
    { unfold tail; lia. }
    assert (K' : keep lo g g').
    { eapply keep_trans; [|exact K]. split; [lia|]. split; auto. }
    cbn [bind]. eexists _, _. split; [reflexivity|]. split; auto. unfold rinv; cbn [f_in f_out f_skip]. split; [exact CI2|split; [exact SK|split; [|split]]].
    + intros v Hv. apply in_app_or in Hv as [Hv|[<-|[]]]; [|lia]. apply IR in Hv. destruct K'; lia.
    + fold out'. apply Forall2_app; [|constructor; [|constructor]].
      * eapply Forall2_mono; [|exact CH]. intros v r Hv. apply (chain_keep g g' lo _ _ _ CI); auto; [apply K'|]. intros u Hu. rewrite O' by lia. auto.
      * rewrite Erow. exact C2.
    + intros _ E. apply app_eq_nil in E. easy.
Qed.

Lemma add_rows_spec lo : forall rows g f done, rinv g lo f done -> Forall (fun r => r <> [] /\ Forall set_ok (map bs_num r)) rows ->
  exists g' f', add_rows g f rows = Ok (g', f') /\ keep lo g g' /\ rinv g' lo f' (done ++ map (map bs_num) rows).
Proof.
  induction rows as [|row rows IH]; intros g f done RI H; cbn [add_rows].
  - exists g, f. rewrite app_nil_r. split; auto. split; auto. apply keep_refl.
  - inversion H as [|? ? [H1 H2] H3]; subst. destruct (add_row_spec g lo f done (map bs_num row) RI) as (g1 & f1 & -> & K1 & R1); auto.
    { intros E. apply map_eq_nil in E. auto. }
    cbn [bind]. destruct (IH g1 f1 _ R1 H3) as (g2 & f2 & -> & K2 & R2). exists g2, f2. split; auto. split; [eapply keep_trans; eauto|].
    rewrite <- app_assoc in R2. exact R2.
Qed.

Lemma rows_spec rows : rows <> [] -> Forall (fun r => r <> [] /\ Forall set_ok (map bs_num r)) rows ->
  builds (fun g => add_rows g (mkF [] [] None) rows) (fun w => flat_map (fun row => row_rest (map bs_num row) w) rows) False.
Proof.
  intros Hne H g S Z.
  assert (R0 : rinv g (length g) (mkF [] [] None) []).
  { split; [|split; [reflexivity|split; [simpl; easy|split; [constructor|intros X; exfalso; apply X; reflexivity]]]]. constructor; simpl; auto; try (intros; lia); try easy; [|constructor].
    intros v u _ Hu. eapply sym_bounded; eauto. }
  destruct (add_rows_spec (length g) rows g _ _ R0 H) as (g' & f & -> & K & (CI & SK & IR & CH & OE)). split; auto. simpl in CH, OE.
  split; [split; auto; split; [apply CI|]|].
  - constructor.
    + auto.
    + intros v p Hv. apply (ci_out _ _ _ _ CI) in Hv. lia.
    + apply (ci_nodup _ _ _ _ CI).
    + apply (ci_edge _ _ _ _ CI).
    + rewrite SK. exact Logic.I.
    + intros E. rewrite E in CH. destruct rows; [auto|inversion CH].
    + apply OE. intros E. apply map_eq_nil in E. auto.
    + intros v Hv E. destruct (ci_chain _ _ _ _ CI v Hv) as (row & C). inversion C as [? ? Ex|? ? ? ? Ex O]; subst; [|congruence].
      apply exit_of_some in Ex. apply in_map_iff. exists (v, 0). auto.
    + apply (ci_reach _ _ _ _ CI).
    + apply (ci_attr _ _ _ _ CI).
    + intros v Hv. destruct (ci_chain _ _ _ _ CI v Hv) as (row & C). clear Hv. induction C as [v s' Ex O B|v u s' row Ex O B C IH].
      * constructor. apply exit_of_some in Ex. apply in_map_iff. exists (v, 0). auto.
      * apply toward_step with u; auto. rewrite O. left. auto.
    + intros d c Hd Hc _ Hu. exfalso. assert (FR := ci_reach _ _ _ _ CI c Hc). assert (D1 : length g <= d < length g') by (apply (ci_edge _ _ _ _ CI c d); auto).
      destruct (ci_chain _ _ _ _ CI d D1) as (rd & Cd).
      assert (X : forall v, from g' (f_in f) v -> exists rv, chain g' (f_out f) v rv /\ length rv <= length rd).
      { intros v Hv. induction Hv as [v Hi|v u Hf IH Hv].
        - rewrite (Hd v Hi). eauto.
        - destruct IH as (rv & Cv & Lv). destruct (chain_next _ _ _ _ _ Cv Hv) as (ru & Cu & Lu). exists ru. split; auto. lia. }
      destruct (X c FR) as (rc & Cc & Lc). destruct (chain_next _ _ _ _ _ Cc Hu) as (rd' & Cd' & Ld). pose proof (chain_length _ _ _ _ Cd _ Cd'). lia.
  - intros w. unfold frag_ways. rewrite SK. cbn [visit].
    assert (E : flat_map (runs g' (exit_of (f_out f)) w) (f_in f) = flat_map (fun row => row_rest row w) (map (map bs_num) rows)).
    { clear - CH. revert CH. generalize (map (map bs_num) rows). intros rws CH. induction CH as [|v row vs rws C CH IH]; auto. simpl. rewrite IH, (chain_runs _ _ _ _ C). auto. }
    rewrite E. clear. induction rows as [|a l IH]; simpl; [apply oeq_refl|apply oeq_app; [apply oeq_refl|auto]].
Qed.
