(** Programs that satisfy the conditions proved of compiled ones, and what searching
    with them reports. *)
From Verif Require Import Base InstrModel VmModel VmSpec VmIdeal VmSim VmSearch VmGeneric VmCalls VmCheck.
Open Scope N_scope.

(** The conditions: a static annotation of the program exists, the first state consists of
    byte instructions reached through FORK and JUMP only, and the filter is sound. *)
Record runnable (P : program) (A : nat -> option ann) (F : nat) (first : list nat) : Prop := {
  rn_wf : wf P A F;
  rn_start : closure F P 0 = Some first;
  rn_arrive : arrive P A NOLABEL false 0;
  rn_filter : filter_sound F P first
}.

(** The matches of keyword [l] that start at offset [s] of a stream [w] whose first byte is
    at [off], in order of preference: their ends. *)
Definition ends_at (F : nat) (P : program) (first : list nat) (l : N) (w : list N) (off s : N) : list N :=
  map snd (flat_map (fut F P l (skipn (N.to_nat (s - off)) w) s) (new_threads first s)).

(** Selection from left to right: the next hit starts at the least offset at or after [m],
    and before [stop], at which there is a match, and is the preferred one there. *)
Inductive leftmost (M : N -> list N) (stop : N) : N -> list (N * N) -> Prop :=
| lm_end : forall m, (forall s, m <= s -> s < stop -> M s = []) -> leftmost M stop m []
| lm_hit : forall m s e r, m <= s -> s < stop -> (forall s', m <= s' -> s' < s -> M s' = []) ->
    hd_error (M s) = Some e -> leftmost M stop e r -> leftmost M stop m ((s, e) :: r).

Lemma leftmost_ext M1 M2 stop m hs : (forall s, m <= s -> s < stop -> M1 s = M2 s) ->
  (forall s e, In (s, e) hs -> s < e) ->
  leftmost M1 stop m hs -> leftmost M2 stop m hs.
Proof.
  intros HM Hok H. induction H.
  - constructor. intros s H1 H2. rewrite <- HM; auto.
  - assert (s < e) by (apply Hok; left; auto). econstructor; eauto.
    + intros s' H5 H6. rewrite <- HM; auto. lia.
    + rewrite <- HM; auto.
    + apply IHleftmost. { intros. apply HM; lia. } intros; apply Hok; right; auto.
Qed.

(** There is only one such selection. *)
Lemma leftmost_unique M stop : forall h1 m h2, leftmost M stop m h1 -> leftmost M stop m h2 -> h1 = h2.
Proof.
  intros h1 m h2 H. revert h2. induction H as [m Hn|m s e r H1 H2 H3 H4 H5 IH]; intros h2 X.
  - inversion X; subst; auto. rewrite Hn in H2; auto; discriminate.
  - inversion X as [m' Hn|m' s2 e2 r2 X1 X2 X3 X4 X5]; subst.
    + rewrite Hn in H4; auto; discriminate.
    + assert (s = s2).
      { destruct (N.lt_trichotomy s s2) as [E|[E|E]]; auto.
        - rewrite X3 in H4; auto; discriminate.
        - rewrite H3 in X4; auto; discriminate. }
      subst s2. assert (e = e2) by congruence. subst e2. f_equal; auto.
Qed.

Section Runnable.
Variables (P : program) (A : nat -> option ann) (F : nat) (first : list nat).
Hypothesis R : runnable P A F first.
Variable fuel : nat.
Hypothesis Hfuel : (F <= fuel)%nat.

Notation FA l w off := (flat_map (fut F P l w off)).

Lemma run_first : init_ok P A first.
Proof. eapply closure_arrive; eauto using rn_wf, rn_start, rn_arrive. Qed.

Lemma run_init : exists st, vm_init fuel P = Ok (first, st) /\ fresh_state P st /\ s_hits st = [].
Proof.
  eexists. split. { eapply init_closure; eauto using rn_start. apply (wf_size _ _ _ (rn_wf _ _ _ _ R)). }
  split; auto. unfold fresh_state. simpl. repeat split; auto.
  rewrite N.mod_small; auto. apply (wf_maxLabel _ _ _ (rn_wf _ _ _ _ R)).
Qed.

Let a_starts := all_starts P A F (rn_wf _ _ _ _ R) fuel Hfuel first run_first.
Let n_starts := new_starts P A F (rn_wf _ _ _ _ R) fuel Hfuel first run_first.
Let n_lists := new_lists P A F (rn_wf _ _ _ _ R) fuel Hfuel first run_first.

(** Search, then resolve, then close out. *)
Lemma run_session cs rs off :
  off + N.of_nat (length (concat cs ++ concat rs)) < two64 -> bytes (concat cs) -> bytes (concat rs) ->
  exists hs vs, session fuel P
      (chunk_calls off cs ++ resolve_calls (off + N.of_nat (length (concat cs))) rs ++ [CClose true]) = Ok (hs, vs) /\
      forall l, hits_of l hs = greedy 0 (before (off + N.of_nat (length (concat cs)))
                                          (all_matches F P first l (concat cs ++ concat rs) off)).
Proof.
  intros Ho H1 H2. destruct run_init as (st & Ei & Hf & Hh). unfold session. rewrite Ei. cbn [bind].
  destruct (session_ok P A F (rn_wf _ _ _ _ R) fuel Hfuel first run_first (rn_filter _ _ _ _ R) cs rs off st Ho H1 H2 Hf)
    as (st' & vs & E & hs & Es & Q).
  rewrite E. cbn [bind]. rewrite Es, Hh. exists hs, vs. split; auto.
Qed.

Lemma run_stream cs off : off + N.of_nat (length (concat cs)) < two64 -> bytes (concat cs) ->
  exists hs vs, session fuel P (chunk_calls off cs ++ [CClose true]) = Ok (hs, vs) /\
    forall l, hits_of l hs = greedy 0 (all_matches F P first l (concat cs) off).
Proof.
  intros Ho Hb. destruct (run_session cs [] off) as (hs & vs & E & Q); simpl; rewrite ?app_nil_r; auto; [constructor|].
  exists hs, vs. split; auto. intros l. rewrite Q. simpl. rewrite app_nil_r. f_equal.
  apply before_all. intros x Hx. apply a_starts in Hx; auto. lia.
Qed.

(** * Properties of the selection *)

Lemma greedy_covers : forall X m x, lists_ok X ->
  (forall a y b z c, X = a ++ y :: b ++ z :: c -> fst y <= fst z) -> In x X -> m <= fst x ->
  exists y, In y (greedy m X) /\ fst y <= fst x /\ fst x < snd y.
Proof.
  induction X as [|[s e] X IH]; intros m x HX HS Hx Hm; [destruct Hx|].
  inversion HX as [|? ? Hse HX']; subst. simpl in Hse.
  assert (HS': forall a y b z c, X = a ++ y :: b ++ z :: c -> fst y <= fst z).
  { intros a y b z c ->. apply (HS ((s, e) :: a) y b z c). auto. }
  simpl. destruct (N.leb_spec m s) as [Hle|Hgt].
  - destruct Hx as [<-|Hx].
    + exists (s, e). simpl. split; auto. lia.
    + destruct (N.le_gt_cases e (fst x)).
      * destruct (IH e x HX' HS' Hx) as (y & Hy & H1 & H2); auto. exists y. split; [right|]; auto.
      * exists (s, e). split; [left; auto|]. simpl. split; auto.
        apply in_split in Hx. destruct Hx as (b & c & ->). apply (HS [] (s, e) b x c). auto.
  - destruct Hx as [<-|Hx]; [simpl in Hm; lia|]. apply IH; auto.
Qed.

Lemma all_sorted l : forall w off, bytes w -> forall a y b z c,
  all_matches F P first l w off = a ++ y :: b ++ z :: c -> fst y <= fst z.
Proof.
  induction w as [|x w IH]; intros off Hw a y b z c E.
  - destruct a; discriminate.
  - change (all_matches F P first l (x :: w) off) with
      (FA l (x :: w) off (new_threads first off) ++ all_matches F P first l w (off + 1)) in E.
    assert (Hw': bytes w) by (inversion Hw; auto).
    assert (Hnew: forall p, In p (FA l (x :: w) off (new_threads first off)) -> fst p = off).
    { intros p Hp. exact (n_starts _ _ _ _ Hw Hp). }
    assert (Hold: forall p, In p (all_matches F P first l w (off + 1)) -> off + 1 <= fst p).
    { intros p Hp. apply a_starts in Hp; auto. lia. }
    assert (Hbig: forall p, In p (all_matches F P first l (x :: w) off) -> off <= fst p).
    { intros p Hp. apply a_starts in Hp; auto. lia. }
    revert E. generalize (FA l (x :: w) off (new_threads first off)) (all_matches F P first l w (off + 1)) Hnew Hold (IH (off + 1) Hw').
    intros X Y HX HY HS E.
    (* position of y *)
    revert X HX E. induction a as [|a0 a IHa]; intros X HX E; destruct X as [|x0 X]; simpl in E.
    + apply (HS [] y b z c). auto.
    + injection E as -> E. rewrite (HX y (or_introl eq_refl)).
      assert (Hin: In z (X ++ Y)) by (rewrite E; apply in_app_iff; right; left; auto).
      apply in_app_iff in Hin. destruct Hin as [Hin|Hin]; [rewrite (HX z (or_intror Hin)); lia|specialize (HY z Hin); lia].
    + apply (HS (a0 :: a) y b z c). auto.
    + injection E as -> E. apply (IHa X); auto. intros; apply HX; right; auto.
Qed.

Lemma all_lists l w off : bytes w -> lists_ok (all_matches F P first l w off).
Proof. intros. apply (all_matches_ok P A F (rn_wf _ _ _ _ R) fuel Hfuel first run_first); auto. Qed.

(** The selection over the list of all matches is the selection from left to right. *)
Lemma greedy_leftmost l : forall w off m, bytes w ->
  leftmost (ends_at F P first l w off) (off + N.of_nat (length w)) m
    (greedy m (all_matches F P first l w off)) \/ m < off.
Proof.
  induction w as [|b w IH]; intros off m Hw.
  - simpl. destruct (N.lt_ge_cases m off); auto. left. constructor. intros s Hs. lia.
  - destruct (N.lt_ge_cases m off) as [|Hm]; auto. left.
    change (all_matches F P first l (b :: w) off) with
      (FA l (b :: w) off (new_threads first off) ++ all_matches F P first l w (off + 1)).
    assert (Hw': bytes w) by (inversion Hw; auto).
    assert (Hnew: forall p, In p (FA l (b :: w) off (new_threads first off)) -> fst p = off).
    { intros p Hp. exact (n_starts _ _ _ _ Hw Hp). }
    assert (Hlist: lists_ok (FA l (b :: w) off (new_threads first off))).
    { apply n_lists; auto. }
    assert (Hext: forall s, off + 1 <= s -> ends_at F P first l (b :: w) off s = ends_at F P first l w (off + 1) s).
    { intros s Hs. unfold ends_at. replace (N.to_nat (s - off)) with (S (N.to_nat (s - (off + 1)))) by lia. auto. }
    assert (Hat: ends_at F P first l (b :: w) off off = map snd (FA l (b :: w) off (new_threads first off))).
    { unfold ends_at. rewrite N.sub_diag. auto. }
    assert (Hstop: off + N.of_nat (length (b :: w)) = off + 1 + N.of_nat (length w)) by (simpl; lia).
    assert (Hrest: forall m', off + 1 <= m' -> leftmost (ends_at F P first l (b :: w) off) (off + N.of_nat (length (b :: w))) m'
              (greedy m' (all_matches F P first l w (off + 1)))).
    { intros m' Hm'. destruct (IH (off + 1) m' Hw') as [H|H]; [|lia]. rewrite Hstop.
      eapply leftmost_ext; [| |exact H].
      - intros s Hs _. symmetry. apply Hext. lia.
      - intros s e Hin. apply greedy_in in Hin. pose proof (all_lists l w (off + 1) Hw') as HL.
        unfold lists_ok in HL. rewrite Forall_forall in HL. apply (HL (s, e) Hin). }
    rewrite greedy_app. destruct (N.eq_dec m off) as [->|Hne].
    + destruct (FA l (b :: w) off (new_threads first off)) as [|[s e] X] eqn:EX.
      * simpl app. simpl gme.
        specialize (Hrest (off + 1) ltac:(lia)).
        (* off <= start anyway *)
        assert (EG: greedy off (all_matches F P first l w (off + 1)) = greedy (off + 1) (all_matches F P first l w (off + 1))).
        { assert (HB: forall p, In p (all_matches F P first l w (off + 1)) -> off + 1 <= fst p).
          { intros p Hp. apply a_starts in Hp; auto. lia. }
          revert HB. generalize (all_matches F P first l w (off + 1)). intros L HB.
          destruct L as [|[s e] L]; auto. simpl. specialize (HB (s, e) (or_introl eq_refl)). simpl in HB.
          destruct (N.leb_spec off s); [|lia]. destruct (N.leb_spec (off + 1) s); [auto|lia]. }
        simpl greedy at 1. simpl app. unfold gme. simpl. rewrite EG.
        inversion Hrest as [m' Hn|m' s e r X1 X2 X3 X4 X5]; subst.
        -- constructor. intros s H1 H2. destruct (N.eq_dec s off) as [->|]; [rewrite Hat; auto|]. apply Hn; auto; lia.
        -- econstructor; eauto; [lia|]. intros s' H1 H2. destruct (N.eq_dec s' off) as [->|]; [rewrite Hat; auto|]. apply X3; auto; lia.
      * assert (s = off) by (apply (Hnew (s, e)); left; auto). subst s.
        inversion Hlist as [|? ? Hse HX]; subst. simpl in Hse.
        simpl greedy at 1. rewrite N.leb_refl.
        assert (EG: greedy e X = [] /\ gme e X = e).
        { apply greedy_skip. intros p Hp. rewrite (Hnew p (or_intror Hp)). auto. }
        destruct EG as (EG1 & EG2). rewrite EG1. simpl gme. rewrite N.leb_refl, EG2. simpl app.
        econstructor; [lia|rewrite Hstop; lia| |rewrite Hat; reflexivity|].
        -- intros s' H1 H2. lia.
        -- apply Hrest. lia.
    + assert (EG: greedy m (FA l (b :: w) off (new_threads first off)) = [] /\ gme m (FA l (b :: w) off (new_threads first off)) = m).
      { apply greedy_skip. intros p Hp. rewrite (Hnew p Hp). lia. }
      destruct EG as (-> & ->). simpl app. apply Hrest. lia.
Qed.

Lemma greedy_low l w off : bytes w ->
  greedy 0 (all_matches F P first l w off) = greedy off (all_matches F P first l w off).
Proof.
  intros Hw. assert (HB: forall p, In p (all_matches F P first l w off) -> off <= fst p).
  { intros p Hp. apply a_starts in Hp; auto. lia. }
  revert HB. generalize (all_matches F P first l w off). intros L HB.
  destruct L as [|[s e] L]; auto. simpl. specialize (HB (s, e) (or_introl eq_refl)). simpl in HB.
  destruct (N.leb_spec 0 s); [|lia]. destruct (N.leb_spec off s); [auto|lia].
Qed.
End Runnable.

(** * A small program, as the compiler would lay it out, for the keywords "ab" and "b+". *)

Definition demo_words : list N :=
  [7; 8;                       (*  0 FORK 8 *)
   1 + 97 * 65536;             (*  2 BYTE a *)
   10;                         (*  3 LABEL 0 *)
   1 + 98 * 65536;             (*  4 BYTE b *)
   11;                         (*  5 MATCH *)
   6;                          (*  6 FINISH *)
   12;                         (*  7 *)
   1 + 98 * 65536;             (*  8 BYTE b *)
   10 + 1 * 256;               (*  9 LABEL 1 *)
   9 + 1 * 256;                (* 10 CHECK_HALT 1 *)
   11;                         (* 11 MATCH *)
   7; 17;                      (* 12 FORK 17 *)
   8; 8;                       (* 14 JUMP 8 *)
   12;                         (* 16 HALT *)
   6].                         (* 17 FINISH *)

(** The filter that lets everything pass. *)
Definition all_pass : N := N.ones 65536.

Lemma all_pass_ok P w : p_filter P = all_pass -> bytes w -> p_filterOff P + 1 < N.of_nat (length w) ->
  filter_pass P w = Ok true.
Proof.
  intros HP Hb Hlen. unfold filter_pass, get.
  destruct (nth_error w (N.to_nat (p_filterOff P))) as [lo|] eqn:E1; [|apply nth_error_None in E1; lia].
  destruct (nth_error w (N.to_nat (p_filterOff P) + 1)) as [hi|] eqn:E2; [|apply nth_error_None in E2; lia].
  cbn [bind]. f_equal. unfold bytes in Hb. rewrite Forall_forall in Hb.
  apply nth_error_In in E1, E2. pose proof (Hb _ E1). pose proof (Hb _ E2).
  rewrite HP. unfold all_pass. apply N.ones_spec_low. lia.
Qed.

Definition demo : program :=
  {| p_words := demo_words; p_maxLabel := 1; p_maxCheck := 1; p_filterOff := 0; p_filter := all_pass |}.

Definition demo_ann : list (option ann) :=
  [Some (mkA NOLABEL false false 1); None; Some (mkA NOLABEL false false 0);
   Some (mkA NOLABEL false false 1); Some (mkA 0 false false 0); Some (mkA 0 false false 1);
   Some (mkA 0 false true 0); None;
   Some (mkA 1 true false 0); Some (mkA 1 true false 6); Some (mkA 1 false false 5);
   Some (mkA 1 false false 4); Some (mkA 1 false true 3); None;
   Some (mkA 1 false true 2); None; None; Some (mkA 1 false true 0)].

Lemma demo_runnable : runnable demo (annot demo_ann) 10 [2; 8]%nat.
Proof.
  constructor.
  - apply wfb_ok. vm_compute. reflexivity.
  - vm_compute. reflexivity.
  - eexists. split; [reflexivity|]. vm_compute. split; [discriminate|]. right. left. reflexivity.
  - intros w off l Hb Hlen H. rewrite all_pass_ok in H; auto. discriminate.
Qed.
