(** Theorems about searching with programs that meet the conditions of [runnable], which
    compiled programs do. *)
From Verif Require Import Base VmModel VmSpec VmIdeal VmSim VmSearch VmGeneric VmCalls VmStarts VmCheck VmRunnable.
Open Scope N_scope.

Section Run.
Variables (P : program) (A : nat -> option ann) (F : nat) (first : list nat) (fuel : nat).
Hypotheses (R : runnable P A F first) (Hfuel : (F <= fuel)%nat).

Notation stream_calls off cs := (chunk_calls off cs ++ [CClose true]).

(** C29 (part).  Searching a stream in any buffers and closing out neither reads outside
    the program or its tables nor loops, whatever the bytes are. *)
Theorem search_safe : forall cs rs off,
  off + N.of_nat (length (concat cs ++ concat rs)) < two64 -> bytes (concat cs) -> bytes (concat rs) ->
  exists hits vs, session fuel P
    (chunk_calls off cs ++ resolve_calls (off + N.of_nat (length (concat cs))) rs ++ [CClose true]) = Ok (hits, vs).
Proof.
  intros cs rs off Ho H1 H2. destruct (run_session P A F first R fuel Hfuel cs rs off Ho H1 H2) as (hs & vs & E & _). eauto.
Qed.

(** C42 / C10 / C11 at the level of programs.  The hits of each keyword are the selection
    from left to right of the matches of the idealised engine, in its order of preference. *)
Theorem hits_leftmost : forall cs off hits vs l,
  off + N.of_nat (length (concat cs)) < two64 -> bytes (concat cs) ->
  session fuel P (stream_calls off cs) = Ok (hits, vs) ->
  leftmost (ends_at F P first l (concat cs) off) (off + N.of_nat (length (concat cs))) off (hits_of l hits).
Proof.
  intros cs off hits vs l Ho Hb E.
  destruct (run_stream P A F first R fuel Hfuel cs off Ho Hb) as (hs & vs' & E' & Q).
  rewrite E in E'. injection E' as <- <-. rewrite Q, (greedy_low P A F first R fuel Hfuel) by auto.
  destruct (greedy_leftmost P A F first R fuel Hfuel l (concat cs) off off Hb) as [H|H]; [auto|lia].
Qed.

(** C02.  Each hit is a non-empty range of the stream, for a keyword of the program. *)
Theorem hits_well_formed : forall cs off hits vs,
  off + N.of_nat (length (concat cs)) < two64 -> bytes (concat cs) ->
  session fuel P (stream_calls off cs) = Ok (hits, vs) ->
  Forall (fun h => off <= h_start h /\ h_start h < h_end h /\
                   h_end h <= off + N.of_nat (length (concat cs)) /\ h_label h <= p_maxLabel P) hits.
Proof.
  intros cs off hits vs Ho Hb E.
  destruct (run_stream P A F first R fuel Hfuel cs off Ho Hb) as (hs & vs' & E' & Q).
  rewrite E in E'. injection E' as <- <-. apply Forall_forall. intros h Hh.
  assert (Hin: In (h_start h, h_end h) (hits_of (h_label h) hits)).
  { unfold hits_of. apply in_map_iff. exists h. split; auto. apply filter_In. split; auto. apply N.eqb_refl. }
  rewrite Q in Hin. apply greedy_in in Hin.
  apply (all_bound P A F (rn_wf _ _ _ _ R) fuel Hfuel first (run_first P A F first R)) in Hin; auto.
Qed.

(** C03.  Two ways of cutting the same stream into buffers report the same hits. *)
Theorem chunking_invariant : forall cs1 cs2 off hits1 vs1 hits2 vs2,
  concat cs1 = concat cs2 -> off + N.of_nat (length (concat cs1)) < two64 -> bytes (concat cs1) ->
  session fuel P (stream_calls off cs1) = Ok (hits1, vs1) ->
  session fuel P (stream_calls off cs2) = Ok (hits2, vs2) ->
  forall l, hits_of l hits1 = hits_of l hits2.
Proof.
  intros cs1 cs2 off hits1 vs1 hits2 vs2 EC Ho Hb E1 E2 l.
  destruct (run_stream P A F first R fuel Hfuel cs1 off Ho Hb) as (h1 & v1 & X1 & Q1).
  rewrite EC in Ho, Hb.
  destruct (run_stream P A F first R fuel Hfuel cs2 off Ho Hb) as (h2 & v2 & X2 & Q2).
  rewrite E1 in X1. injection X1 as <- <-. rewrite E2 in X2. injection X2 as <- <-.
  rewrite Q1, Q2, EC. auto.
Qed.

(** C04.  Let [r] be what the last of some search calls returned.  The hits starting before
    [r] are the same whatever is searched and resolved afterwards, as when the stream ends
    there. *)
Theorem returned_offset_bounds : forall cs c off h0 vs r more rs hits1 vs1 hits2 vs2,
  let all := concat (cs ++ [c]) ++ concat more ++ concat rs in
  off + N.of_nat (length all) < two64 -> bytes all ->
  session fuel P (chunk_calls off (cs ++ [c])) = Ok (h0, vs ++ [r]) ->
  session fuel P (stream_calls off (cs ++ [c])) = Ok (hits1, vs1) ->
  session fuel P (chunk_calls off ((cs ++ [c]) ++ more) ++
     resolve_calls (off + N.of_nat (length (concat ((cs ++ [c]) ++ more)))) rs ++ [CClose true]) = Ok (hits2, vs2) ->
  r <= off + N.of_nat (length (concat (cs ++ [c]))) /\
  forall l, filter (fun x => fst x <? r) (hits_of l hits2) = filter (fun x => fst x <? r) (hits_of l hits1).
Proof.
  intros cs c off h0 vs r more rs hits1 vs1 hits2 vs2 all Ho Hb E0 E1 E2. subst all.
  assert (Hb1: bytes (concat (cs ++ [c])) /\ bytes (concat more) /\ bytes (concat rs)).
  { unfold bytes in *. rewrite !Forall_app in Hb. tauto. }
  destruct Hb1 as (Hb1 & Hb2 & Hb3). rewrite !app_length in Ho.
  pose proof (run_first P A F first R) as Hfirst. pose proof (rn_wf _ _ _ _ R) as W.
  pose proof (rn_filter _ _ _ _ R) as Hfilter.
  destruct (run_init P A F first R fuel Hfuel) as (st & Ei & Hf & Hh).
  set (off2 := off + N.of_nat (length (concat (cs ++ [c])))) in *.
  (* state after the searches *)
  unfold session in E0. rewrite Ei in E0. cbn [bind] in E0.
  destruct (vm_calls fuel P first st (chunk_calls off (cs ++ [c]))) as [[st1 v1]| | |] eqn:Ec; try discriminate.
  cbn [bind] in E0. injection E0 as _ ->.
  assert (Ho1: off2 < two64) by (unfold off2; lia).
  pose proof (returned_session P A F W fuel Hfuel first Hfirst Hfilter cs c off st st1 vs r Ho1 Hb1 Hf Ec) as HL.
  destruct (fresh_chunks P A F W fuel Hfuel first Hfirst Hfilter (cs ++ [c]) off st Ho1 Hb1 Hf)
    as (st1' & vs' & Ec' & I1 & Ecb & hs & _ & Q).
  rewrite Ec in Ec'. injection Ec' as <- <-. rewrite Ecb in I1 by (destruct cs; discriminate).
  fold off2 in HL, I1, Q.
  assert (Hr: r <= off2).
  { apply (returned_ok P A F W fuel Hfuel first Hfirst off2 st1 r 0 [] I1 HL (Forall_nil _)). }
  split; auto. intros l. change (fun x : N * N => fst x <? r) with (fun x : N * N => fst x <? r).
  change (before r (hits_of l hits2) = before r (hits_of l hits1)).
  (* the two sessions *)
  destruct (run_stream P A F first R fuel Hfuel (cs ++ [c]) off Ho1 Hb1) as (h1 & w1 & X1 & Q1).
  rewrite E1 in X1. injection X1 as <- <-. rewrite Q1.
  destruct (run_session P A F first R fuel Hfuel ((cs ++ [c]) ++ more) rs off) as (h2 & w2 & X2 & Q2).
  { rewrite (concat_app (cs ++ [c])), !app_length. lia. }
  { rewrite concat_app. apply Forall_app; auto. }
  { auto. }
  rewrite E2 in X2. injection X2 as <- <-. rewrite Q2.
  rewrite (greedy_before P A F W fuel Hfuel first Hfirst).
  2:{ rewrite concat_app. apply Forall_app; auto. }
  2:{ auto. }
  assert (HB: forall R X, r <= R -> before r (before R X) = before r X).
  { clear. intros R X Hr. induction X as [|x X IH]; simpl; auto.
    destruct (N.ltb_spec (fst x) R); simpl; destruct (N.ltb_spec (fst x) r); try lia; rewrite ?IH; auto. }
  rewrite HB by (rewrite concat_app, app_length; unfold off2 in Hr; lia). clear HB.
  rewrite (concat_app (cs ++ [c])), <- app_assoc.
  assert (Hbm: bytes (concat more ++ concat rs)) by (apply Forall_app; auto).
  rewrite (Q l _ Hbm).
  pose proof (Q l [] (Forall_nil _)) as Q0. rewrite app_nil_r in Q0. rewrite Q0.
  simpl all_matches. rewrite app_nil_r, !before_app. f_equal.
  apply (returned_ok P A F W fuel Hfuel first Hfirst off2 st1 r l _ I1 HL Hbm).
Qed.

(** C06.  starts_with on a new context reports at most one hit for each keyword, of the
    matches at the first byte the preferred one, and leaves the context as new. *)
Theorem starts_with_preferred : forall buf start hits vs after h1 v1,
  start + N.of_nat (length buf) < two64 -> bytes buf ->
  session fuel P [CStarts buf start true] = Ok (hits, vs) ->
  (forall l, hits_of l hits = [] \/
     exists e, hd_error (ends_at F P first l buf start start) = Some e /\ hits_of l hits = [(start, e)]) /\
  (session fuel P after = Ok (h1, v1) ->
   session fuel P (CStarts buf start true :: after) = Ok (hits ++ h1, vs ++ v1)).
Proof.
  intros buf start hits vs after h1 v1 Ho Hb E.
  destruct (run_init P A F first R fuel Hfuel) as (st & Ei & Hf & Hh).
  pose proof (init_state _ _ _ _ Ei) as Est.
  destruct (starts_ok P A F (rn_wf _ _ _ _ R) fuel Hfuel first (run_first P A F first R) (rn_filter _ _ _ _ R) buf start st Ho Hb Hf)
    as (st' & Es & Hf' & hs & Eh & Q).
  unfold session in E. rewrite Ei in E. cbn [bind vm_calls vm_call] in E. rewrite Es in E. cbn [bind] in E.
  injection E as <- <-. rewrite Eh, Hh. simpl app.
  split.
  - intros l. rewrite Q. destruct (starts_guard P buf); auto.
    destruct (flat_map (fut F P l buf start) (new_threads first start)) as [|[s e] X] eqn:EX; auto.
    right. exists e. unfold ends_at. rewrite N.sub_diag. simpl skipn. rewrite EX. simpl. split; auto.
    assert (s = start).
    { apply (new_starts P A F (rn_wf _ _ _ _ R) fuel Hfuel first (run_first P A F first R) l buf start (s, e) Hb). rewrite EX. left; auto. }
    subst s; auto.
  - intros E2. unfold session in *. rewrite Ei in *. cbn [bind vm_calls vm_call] in *. rewrite Es. cbn [bind].
    destruct (vm_calls fuel P first st after) as [[st2 v2]| | |] eqn:E3; try discriminate. cbn [bind] in E2.
    injection E2 as <- <-.
    (* the state differs from the initial one only in the callback pointer and the hits *)
    assert (HE: exists cb, st' = pre hs (with_cb st cb)).
    { assert (EL: length (s_mends st') = length (s_mends st)).
      { apply (len_calls fuel P first [CStarts buf start true] st st' [0]). cbn [vm_calls vm_call]. rewrite Es. auto. }
      unfold starts_with in Es. inv_bind Es. destruct x.
      - inv_bind Es. inv_bind Es. injection Es as <-. exists false.
        unfold reset in *. simpl in Eh, EL. unfold pre, with_cb, with_hits. cbn.
        rewrite repeat_length in EL. rewrite EL, Eh, Hh. rewrite Est. cbn.
        rewrite repeat_length, app_nil_r. reflexivity.
      - injection Es as <-. exists true. simpl in Eh. rewrite Hh in Eh. simpl in Eh. subst hs. reflexivity. }
    destruct HE as (cb & ->).
    assert (HC: forall cs cb0 st0, rmap (fun x => (s_hits (fst x), snd x)) (vm_calls fuel P first (with_cb st0 cb0) cs) =
               rmap (fun x => (s_hits (fst x), snd x)) (vm_calls fuel P first st0 cs)).
    { clear. induction cs as [|c cs IH]; intros cb0 st0; [reflexivity|]. cbn [vm_calls].
      destruct c; try reflexivity. }
    rewrite pre_calls. specialize (HC after cb st). rewrite E3 in HC.
    destruct (vm_calls fuel P first (with_cb st cb) after) as [[st3 v3]| | |]; try discriminate.
    simpl in *. injection HC as -> ->. reflexivity.
Qed.

(** C07, the true part.  For a one-byte buffer, or one longer than the filter offset by
    more than one, starts_with reports every keyword that matches at the first byte. *)
Theorem starts_with_complete_partial : forall buf start hits vs l e,
  start + N.of_nat (length buf) < two64 -> bytes buf ->
  length buf = 1%nat \/ p_filterOff P + 1 < N.of_nat (length buf) ->
  session fuel P [CStarts buf start true] = Ok (hits, vs) ->
  hd_error (ends_at F P first l buf start start) = Some e -> hits_of l hits = [(start, e)].
Proof.
  intros buf start hits vs l e Ho Hb Hlen E He.
  destruct (run_init P A F first R fuel Hfuel) as (st & Ei & Hf & Hh).
  destruct (starts_ok P A F (rn_wf _ _ _ _ R) fuel Hfuel first (run_first P A F first R) (rn_filter _ _ _ _ R) buf start st Ho Hb Hf)
    as (st' & Es & Hf' & hs & Eh & Q).
  unfold session in E. rewrite Ei in E. cbn [bind vm_calls vm_call] in E. rewrite Es in E. cbn [bind] in E.
  injection E as <- <-. rewrite Eh, Hh. simpl app. rewrite Q.
  assert (starts_guard P buf = true) as ->.
  { unfold starts_guard. destruct Hlen as [-> |Hl]; auto. apply N.ltb_lt in Hl. rewrite Hl. apply orb_true_r. }
  unfold ends_at in He. rewrite N.sub_diag in He. simpl skipn in He.
  destruct (flat_map (fut F P l buf start) (new_threads first start)) as [|[s e'] X] eqn:EX; [discriminate|].
  simpl in He. injection He as <-.
  assert (s = start).
  { apply (new_starts P A F (rn_wf _ _ _ _ R) fuel Hfuel first (run_first P A F first R) l buf start (s, e') Hb). rewrite EX. left; auto. }
  subst s. auto.
Qed.

(** C08.  Resolving reports exactly the matches that started in what was searched, with the
    bytes resolved as continuation. *)
Theorem resolve_exact : forall cs rs off hits vs l,
  off + N.of_nat (length (concat cs ++ concat rs)) < two64 -> bytes (concat cs) -> bytes (concat rs) ->
  session fuel P
    (chunk_calls off cs ++ resolve_calls (off + N.of_nat (length (concat cs))) rs ++ [CClose true]) = Ok (hits, vs) ->
  exists full fvs, session fuel P (stream_calls off (cs ++ rs)) = Ok (full, fvs) /\
    hits_of l hits = filter (fun x => fst x <? off + N.of_nat (length (concat cs))) (hits_of l full).
Proof.
  intros cs rs off hits vs l Ho H1 H2 E.
  destruct (run_session P A F first R fuel Hfuel cs rs off Ho H1 H2) as (h1 & v1 & E1 & Q1).
  rewrite E in E1. injection E1 as <- <-.
  destruct (run_stream P A F first R fuel Hfuel (cs ++ rs) off) as (h2 & v2 & E2 & Q2).
  { rewrite concat_app; auto. } { rewrite concat_app. apply Forall_app; auto. }
  exists h2, v2. split; auto. rewrite Q1, Q2, concat_app.
  apply (greedy_before P A F (rn_wf _ _ _ _ R) fuel Hfuel first (run_first P A F first R)); auto.
Qed.

(** C11 at the level of programs: for each match there is a hit containing its first byte. *)
Theorem match_covered : forall cs off hits vs l s e,
  off + N.of_nat (length (concat cs)) < two64 -> bytes (concat cs) ->
  session fuel P (stream_calls off cs) = Ok (hits, vs) ->
  off <= s -> s < off + N.of_nat (length (concat cs)) -> In e (ends_at F P first l (concat cs) off s) ->
  exists h, In h hits /\ h_label h = l /\ h_start h <= s /\ s < h_end h.
Proof.
  intros cs off hits vs l s e Ho Hb E Hs1 Hs2 He.
  destruct (run_stream P A F first R fuel Hfuel cs off Ho Hb) as (h1 & v1 & E1 & Q1).
  rewrite E in E1. injection E1 as <- <-.
  assert (Hin: forall w o, bytes w -> o <= s -> s < o + N.of_nat (length w) -> In e (ends_at F P first l w o s) ->
            In (s, e) (all_matches F P first l w o)).
  { induction w as [|b w IH]; intros o Hw H1 H2 H3; [simpl in H2; lia|].
    change (In (s, e) (flat_map (fut F P l (b :: w) o) (new_threads first o) ++ all_matches F P first l w (o + 1))).
    apply in_app_iff. destruct (N.eq_dec s o) as [->|Hne].
    - left. unfold ends_at in H3. rewrite N.sub_diag in H3. simpl skipn in H3. apply in_map_iff in H3.
      destruct H3 as ([s' e'] & H4 & H5). simpl in H4. subst e'.
      assert (s' = o) by (apply (new_starts P A F (rn_wf _ _ _ _ R) fuel Hfuel first (run_first P A F first R) l (b :: w) o (s', e) Hw H5)).
      subst s'. auto.
    - right. apply IH; [inversion Hw; auto|lia|cbn [length] in H2; lia|].
      unfold ends_at in *. replace (N.to_nat (s - o)) with (S (N.to_nat (s - (o + 1)))) in H3 by lia. auto. }
  specialize (Hin (concat cs) off Hb Hs1 Hs2 He).
  destruct (greedy_covers P A F first R fuel Hfuel (all_matches F P first l (concat cs) off) 0 (s, e)) as ([a b] & Hg & H1 & H2); auto.
  - apply (all_lists P A F first R fuel Hfuel); auto.
  - apply (all_sorted P A F first R fuel Hfuel); auto.
  - simpl. lia.
  - rewrite <- Q1 in Hg. unfold hits_of in Hg. apply in_map_iff in Hg. destruct Hg as (h & Eh & Hh).
    apply filter_In in Hh. destruct Hh as (Hh & Hl). apply N.eqb_eq in Hl. injection Eh as <- <-.
    exists h. repeat split; auto.
Qed.
End Run.

(** C09 at the level of programs.  With the filter replaced by one that lets everything
    pass, the hits are the same. *)
Theorem filter_irrelevant : forall P A F first fuel cs off hits1 vs1 hits2 vs2,
  runnable P A F first -> (F <= fuel)%nat ->
  off + N.of_nat (length (concat cs)) < two64 -> bytes (concat cs) ->
  session fuel P (chunk_calls off cs ++ [CClose true]) = Ok (hits1, vs1) ->
  session fuel {| p_words := p_words P; p_maxLabel := p_maxLabel P; p_maxCheck := p_maxCheck P;
                  p_filterOff := 0; p_filter := all_pass |}
     (chunk_calls off cs ++ [CClose true]) = Ok (hits2, vs2) ->
  forall l, hits_of l hits1 = hits_of l hits2.
Proof.
  intros P A F first fuel cs off hits1 vs1 hits2 vs2 R Hfuel Ho Hb E1 E2 l.
  set (P' := {| p_words := p_words P; p_maxLabel := p_maxLabel P; p_maxCheck := p_maxCheck P;
                  p_filterOff := 0; p_filter := all_pass |}) in *.
  assert (R': runnable P' A F first).
  { destruct R as [[W1 W2 W3 W4 W5 W6] R2 R3 R4]. constructor.
    - constructor; auto.
    - rewrite <- R2. clear. generalize 0%nat. induction F as [|f IH]; intros pc; auto. simpl.
      destruct (nth_error (p_words P) pc) as [w|]; auto. destruct (w_op w); auto.
      + destruct (nth_error (p_words P) (pc + 1)); auto. rewrite !IH. auto.
      + destruct (nth_error (p_words P) (pc + 1)); auto.
    - exact R3.
    - intros w o l0 Hw Hlen H. rewrite all_pass_ok in H; auto. discriminate. }
  destruct (run_stream P A F first R fuel Hfuel cs off Ho Hb) as (h1 & v1 & X1 & Q1).
  destruct (run_stream P' A F first R' fuel Hfuel cs off Ho Hb) as (h2 & v2 & X2 & Q2).
  rewrite E1 in X1. injection X1 as <- <-. rewrite E2 in X2. injection X2 as <- <-.
  rewrite Q1, Q2. f_equal.
  assert (EI: forall f t o, ileaves f P' t o = ileaves f P t o).
  { clear. induction f as [|f IH]; intros t o; auto. simpl.
    destruct (nth_error (p_words P) (t_pc t)) as [w|]; auto. destruct (w_op w); auto.
    - rewrite IH. f_equal. destruct (nth_error (p_words P) (t_pc t + 1)); auto.
    - destruct (nth_error (p_words P) (t_pc t + 1)); auto. }
  assert (EF: forall w o t, fut F P' l w o t = fut F P l w o t).
  { induction w as [|b w IH]; intros o t; auto. simpl. change (is_fin P' (t_pc t)) with (is_fin P (t_pc t)).
    destruct (is_fin P (t_pc t)); auto. unfold istep. change (exec_byte P' t b) with (exec_byte P t b).
    destruct (exec_byte P t b) as [[t1|]| | |]; auto. rewrite EI. apply flat_map_ext. auto. }
  clear - EF. revert off. induction (concat cs) as [|b w IH]; intros off; auto.
  change (flat_map (fut F P l (b :: w) off) (new_threads first off) ++ all_matches F P first l w (off + 1) =
          flat_map (fut F P' l (b :: w) off) (new_threads first off) ++ all_matches F P' first l w (off + 1)).
  rewrite <- IH. f_equal. apply flat_map_ext. auto.
Qed.

(** C07 fails: with filter offset 1 (and a filter that lets everything pass), "ab" is not
    found in the buffer "ab". *)
Definition demo1 : program :=
  {| p_words := demo_words; p_maxLabel := 1; p_maxCheck := 1; p_filterOff := 1; p_filter := all_pass |}.

Lemma demo1_runnable : runnable demo1 (annot demo_ann) 10 [2; 8]%nat.
Proof.
  constructor.
  - apply wfb_ok. vm_compute. reflexivity.
  - vm_compute. reflexivity.
  - eexists. split; [reflexivity|]. vm_compute. split; [discriminate|]. right. left. reflexivity.
  - intros w off l Hb Hlen H. rewrite all_pass_ok in H; auto. discriminate.
Qed.

Theorem starts_with_complete_refuted : exists P A F first buf start l e,
  runnable P A F first /\ bytes buf /\ start + N.of_nat (length buf) < two64 /\
  In e (ends_at F P first l buf start start) /\
  forall fuel hits vs, (F <= fuel)%nat -> session fuel P [CStarts buf start true] = Ok (hits, vs) -> hits = [].
Proof.
  exists demo1, (annot demo_ann), 10%nat, [2; 8]%nat, [97; 98], 0, 0, 2.
  split; [apply demo1_runnable|]. split; [repeat constructor|]. split; [vm_compute; reflexivity|].
  split; [vm_compute; auto|]. intros fuel hits vs Hf H. unfold session in H.
  destruct (run_init _ _ _ _ demo1_runnable fuel Hf) as (st & Ei & _ & Hh). rewrite Ei in H.
  cbn [bind vm_calls vm_call] in H. unfold starts_with in H. simpl in H. injection H as <- _. auto.
Qed.
Print Assumptions search_safe.
Print Assumptions hits_leftmost.
Print Assumptions hits_well_formed.
Print Assumptions chunking_invariant.
Print Assumptions returned_offset_bounds.
Print Assumptions starts_with_preferred.
Print Assumptions starts_with_complete_partial.
Print Assumptions resolve_exact.
Print Assumptions match_covered.
Print Assumptions filter_irrelevant.
Print Assumptions starts_with_complete_refuted.

(** The demonstration program meets the hypotheses; keyword 1 ("b+") in "abbbab" cut in two
    ways, and its matches at offset 1 in order of preference. *)
Example chunking_example :
  session 20 demo (chunk_calls 7 [[97]; []; [98; 98; 98; 97]; [98]] ++ [CClose true])
   = Ok ([mkHit 7 9 0; mkHit 8 11 1; mkHit 11 13 0; mkHit 12 13 1], [7; 7; 11; 12; 0]) /\
  ends_at 10 demo [2; 8]%nat 1 [97; 98; 98; 98; 97; 98] 7 8 = [11; 10; 9].
Proof. vm_compute. split; reflexivity. Qed.
