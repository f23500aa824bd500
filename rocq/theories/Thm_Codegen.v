(** Theorems about compiled programs: createProgram followed by searching, in terms of the
    automaton that was compiled. *)
From Verif Require Import Base InstrModel NfaModel CodegenModel CodegenSpec CodegenLayout CodegenSem CodegenRun CodegenTotal.
From Verif Require Import VmModel VmSpec VmIdeal VmSim VmSearch VmGeneric VmCalls VmCheck VmRunnable Thm_VmRun.
Open Scope N_scope.

(** * Specification: the language of an automaton for a keyword *)

Definition newlab (x : vertex) (lab : N) : N := if v_label x =? NOLABEL then lab else v_label x.

(** Reading [w] from state [v] with label [lab] leads to a match state with label [l]. *)
Inductive accepts (g : nfa) (l : N) : N -> list N -> nat -> Prop :=
| acc_match : forall lab v x, nth_error g v = Some x -> v_match x = true -> newlab x lab = l -> accepts g l lab [] v
| acc_step : forall lab v x b w c, nth_error g v = Some x -> In c (v_out x) -> enters g c b = true ->
    accepts g l (newlab x lab) w c -> accepts g l lab (b :: w) v.

Definition matches (g : nfa) (l : N) (w : list N) : Prop := accepts g l NOLABEL w 0.

(** The bytes of the stream [w], beginning at offset [off], from [s] to [e]. *)
Definition slice (w : list N) (off s e : N) : list N := firstn (N.to_nat (e - s)) (skipn (N.to_nat (s - off)) w).

Definition opt_list {A} (o : option A) : list A := match o with Some a => [a] | None => [] end.

(** The preferred match of keyword [l] that starts at [s]. *)
Definition preferred (g : nfa) (l : N) (w : list N) (off s : N) : option N :=
  best g l NOLABEL (skipn (N.to_nat (s - off)) w) 0 s.

Lemma best_accepts g l : forall w lab v pos e, best g l lab w v pos = Some e ->
  exists k, e = pos + N.of_nat k /\ (k <= length w)%nat /\ accepts g l lab (firstn k w) v.
Proof.
  induction w as [|b w IH]; intros lab v pos e H; cbn [best] in H; destruct (nth_error g v) as [x|] eqn:Ex; try discriminate.
  - destruct (v_match x) eqn:Em; [|discriminate]. cbn [andb] in H. fold (newlab x lab) in H.
    destruct (N.eqb_spec (newlab x lab) l) as [El|]; [|discriminate]. injection H as <-.
    exists 0%nat. split; [lia|]. split; auto. econstructor; eauto.
  - fold (newlab x lab) in H.
    match type of H with match ?f with _ => _ end = _ => destruct f as [e'|] eqn:Ef end.
    + injection H as ->. apply CodegenFilter.first_some_ex in Ef. destruct Ef as (c & Hc & Hb).
      destruct (enters g c b) eqn:En; [|discriminate]. destruct (IH _ _ _ _ Hb) as (k & H1 & H2 & H3).
      exists (S k). split; [lia|]. split; [simpl; lia|]. simpl. econstructor; eauto.
    + destruct (v_match x) eqn:Em; [|discriminate]. cbn [andb] in H.
      destruct (N.eqb_spec (newlab x lab) l) as [El|]; [|discriminate]. injection H as <-.
      exists 0%nat. split; [lia|]. split; [lia|]. econstructor; eauto.
Qed.

Lemma accepts_best g l : forall w u lab v pos, accepts g l lab u v -> (exists r, w = u ++ r) -> best g l lab w v pos <> None.
Proof.
  intros w u lab v pos H. revert w pos. induction H as [lab v x Ex Em El|lab v x b u c Ex Hc En H IH]; intros w pos (r & ->).
  - simpl. destruct r as [|b r]; cbn [best]; rewrite Ex; fold (newlab x lab); rewrite Em, El, N.eqb_refl; cbn [andb]; [discriminate|].
    match goal with |- (match ?f with _ => _ end) <> _ => destruct f end; discriminate.
  - change ((b :: u) ++ r) with (b :: (u ++ r)). cbn [best]. rewrite Ex. fold (newlab x lab).
    match goal with |- (match ?f with _ => _ end) <> _ => destruct f as [e|] eqn:Ef end; [discriminate|].
    exfalso. apply (first_some_in _ _ c Hc) in Ef. cbn beta in Ef. rewrite En in Ef. apply (IH (u ++ r) (pos + 1)); eauto.
Qed.

(** * The theorems *)

(** Compiling succeeds: it neither throws nor accesses anything out of bounds, and it
    terminates (the fuel needed is bounded by the size of the automaton). *)
Theorem compile_succeeds : forall g K fuel1 fuel2, good g K -> fits32 g -> compilable g ->
  (length g <= fuel1)%nat -> ((length g + 2) * length g < fuel2)%nat -> exists P, createProgram fuel1 fuel2 g = Ok P.
Proof. intros. eapply createProgram_total; eauto. Qed.

Section Compiled.
Variables (g : nfa) (K : nat -> N) (fuel1 fuel2 : nat) (P : program).
Hypotheses (G : good g K) (HF : fits32 g) (C : createProgram fuel1 fuel2 g = Ok P).
Variable fuel : nat.
Hypothesis Hfuel : (2 * length (p_words P) <= fuel)%nat.

Notation stream_calls off cs := (chunk_calls off cs ++ [CClose true]).

(** C30.  What a compiled program prefers among the matches starting at an offset is what
    the automaton prefers. *)
Theorem compiled_preference : exists F first, closure F P 0 = Some first /\
  forall l w off s, bytes w -> hd_error (ends_at F P first l w off s) = preferred g l w off s.
Proof.
  destruct (compiled_runnable _ _ _ _ _ G HF C) as (A & F & first & HFu & R & Q).
  exists F, first. split; [apply (rn_start _ _ _ _ R)|exact Q].
Qed.

(** C29.  A compiled program can be searched with: whatever the bytes, each call returns
    and none reads outside the program or its tables. *)
Theorem compiled_search_safe : forall cs rs off,
  off + N.of_nat (length (concat cs ++ concat rs)) < two64 -> bytes (concat cs) -> bytes (concat rs) ->
  exists hits vs, session fuel P
    (chunk_calls off cs ++ resolve_calls (off + N.of_nat (length (concat cs))) rs ++ [CClose true]) = Ok (hits, vs).
Proof.
  destruct (compiled_runnable _ _ _ _ _ G HF C) as (A & F & first & HFu & R & Q).
  exact (search_safe P A F first fuel R ltac:(lia)).
Qed.

(** C42.  The hits of a keyword: from left to right, each the preferred match at the least
    offset not before the end of the previous hit at which the keyword matches. *)
Theorem compiled_hits_leftmost : forall cs off hits vs l,
  off + N.of_nat (length (concat cs)) < two64 -> bytes (concat cs) ->
  session fuel P (stream_calls off cs) = Ok (hits, vs) ->
  leftmost (fun s => opt_list (preferred g l (concat cs) off s))
           (off + N.of_nat (length (concat cs))) off (hits_of l hits).
Proof.
  intros cs off hits vs l Ho Hb E.
  destruct (compiled_runnable _ _ _ _ _ G HF C) as (A & F & first & HFu & R & Q).
  apply (leftmost_hd (ends_at F P first l (concat cs) off)).
  - intros s. rewrite Q by auto. unfold preferred. destruct (best _ _ _ _ _ _); auto.
  - eapply (hits_leftmost P A F first fuel R ltac:(lia)); eauto.
Qed.

(** C02.  Each hit is a non-empty range of the stream. *)
Theorem compiled_hits_well_formed : forall cs off hits vs,
  off + N.of_nat (length (concat cs)) < two64 -> bytes (concat cs) ->
  session fuel P (stream_calls off cs) = Ok (hits, vs) ->
  Forall (fun h => off <= h_start h /\ h_start h < h_end h /\ h_end h <= off + N.of_nat (length (concat cs)) /\
                   h_label h <= p_maxLabel P) hits.
Proof.
  destruct (compiled_runnable _ _ _ _ _ G HF C) as (A & F & first & HFu & R & Q).
  exact (hits_well_formed P A F first fuel R ltac:(lia)).
Qed.

Lemma leftmost_in M stop : forall hs m s e, leftmost M stop m hs -> In (s, e) hs -> s < stop /\ hd_error (M s) = Some e.
Proof.
  induction hs as [|[s0 e0] hs IH]; intros m s e H Hin; [easy|].
  inversion H as [|m' s' e' r H1 H2 H3 H4 H5]; subst. destruct Hin as [Hin|Hin]; [injection Hin as -> ->; auto|]. eapply IH; eauto.
Qed.

(** C10 for automata.  Each hit is a range whose bytes the automaton accepts for its keyword. *)
Theorem compiled_no_false_hits : forall cs off hits vs h,
  off + N.of_nat (length (concat cs)) < two64 -> bytes (concat cs) ->
  session fuel P (stream_calls off cs) = Ok (hits, vs) -> In h hits ->
  matches g (h_label h) (slice (concat cs) off (h_start h) (h_end h)).
Proof.
  intros cs off hits vs h Ho Hb E Hh.
  pose proof (compiled_hits_leftmost cs off hits vs (h_label h) Ho Hb E) as HL.
  assert (Hin: In (h_start h, h_end h) (hits_of (h_label h) hits)).
  { unfold hits_of. apply in_map_iff. exists h. split; auto. apply filter_In. split; auto. apply N.eqb_refl. }
  destruct (leftmost_in _ _ _ _ _ _ HL Hin) as (_ & He). unfold preferred in He.
  destruct (best g (h_label h) NOLABEL (skipn (N.to_nat (h_start h - off)) (concat cs)) 0 (h_start h)) as [e|] eqn:Eb; [|discriminate].
  simpl in He. injection He as ->. apply best_accepts in Eb. destruct Eb as (k & Ek & Hk & Hacc).
  unfold matches, slice. replace (N.to_nat (h_end h - h_start h)) with k by lia. auto.
Qed.

Lemma leftmost_covers (M : N -> list N) stop : (forall s e, hd_error (M s) = Some e -> s < e) -> forall hs m, leftmost M stop m hs -> forall s, m <= s -> s < stop -> M s <> [] ->
  exists a b, In (a, b) hs /\ a <= s /\ s < b.
Proof.
  intros HM hs m H. induction H as [m Hn|m s0 e0 r H1 H2 H3 H4 H5 IH]; intros s Hs1 Hs2 Hs3.
  - rewrite Hn in Hs3; auto. easy.
  - destruct (N.ltb_spec s s0) as [Hlt|Hge]; [rewrite (H3 s) in Hs3; auto; easy|].
    destruct (N.ltb_spec s e0) as [Hlt2|Hge2].
    + exists s0, e0. split; [left; auto|]. auto.
    + destruct (IH s Hge2 Hs2 Hs3) as (a & b & Hin & Hab). exists a, b. split; [right; auto|auto].
Qed.

Lemma best_pos l w off s e : bytes w -> off <= s -> best g l NOLABEL (skipn (N.to_nat (s - off)) w) 0 s = Some e -> s < e.
Proof.
  intros Hb Hs H. apply best_accepts in H. destruct H as (k & -> & Hk & Hacc).
  destruct k as [|k]; [|lia]. simpl in Hacc. inversion Hacc as [lab v x Ex Em El|]; subst.
  destruct (gd_root _ _ G) as (x' & Ex' & _ & Em' & _). congruence.
Qed.

(** C11 for automata.  For each range that the automaton accepts, some hit of that keyword
    contains its first byte. *)
Theorem compiled_no_missed_match : forall cs off hits vs l s e,
  off + N.of_nat (length (concat cs)) < two64 -> bytes (concat cs) ->
  session fuel P (stream_calls off cs) = Ok (hits, vs) ->
  off <= s -> s < e -> e <= off + N.of_nat (length (concat cs)) -> matches g l (slice (concat cs) off s e) ->
  exists h, In h hits /\ h_label h = l /\ h_start h <= s /\ s < h_end h.
Proof.
  intros cs off hits vs l s e Ho Hb E H1 H2 H3 HM.
  pose proof (compiled_hits_leftmost cs off hits vs l Ho Hb E) as HL.
  assert (Hpos: forall s' e', s' < off \/ (hd_error (opt_list (preferred g l (concat cs) off s')) = Some e' -> s' < e')).
  { intros s' e'. destruct (N.ltb_spec s' off); auto. right. intros He. unfold preferred in He.
    destruct (best g l NOLABEL (skipn (N.to_nat (s' - off)) (concat cs)) 0 s') as [e1|] eqn:Eb; [|discriminate].
    injection He as ->. eapply best_pos; eauto. }
  assert (HL2: leftmost (fun s => if s <? off then [] else opt_list (preferred g l (concat cs) off s))
     (off + N.of_nat (length (concat cs))) off (hits_of l hits)).
  { pose proof (compiled_hits_well_formed cs off hits vs Ho Hb E) as HW.
    apply (leftmost_ext (fun s => opt_list (preferred g l (concat cs) off s))); auto.
    - intros s0 Hs0 _. cbn beta. destruct (N.ltb_spec s0 off); [lia|auto].
    - intros s0 e0 Hin. unfold hits_of in Hin. apply in_map_iff in Hin. destruct Hin as (h & Eh & Hh). apply filter_In in Hh.
      rewrite Forall_forall in HW. destruct (HW h (proj1 Hh)) as (_ & Hlt & _). congruence. }
  set (M := fun s => if s <? off then [] else opt_list (preferred g l (concat cs) off s)) in HL2.
  assert (HMp: forall s' e', hd_error (M s') = Some e' -> s' < e').
  { intros s' e' He. unfold M in He. destruct (N.ltb_spec s' off); [discriminate|]. destruct (Hpos s' e') as [|Hp]; [lia|auto]. }
  destruct (leftmost_covers _ _ HMp _ _ HL2 s H1 ltac:(lia)) as (a & b & Hin & Ha & Hb').
  { unfold M. destruct (N.ltb_spec s off); [lia|]. unfold preferred. intros Hnil.
    apply (accepts_best g l (skipn (N.to_nat (s - off)) (concat cs)) (slice (concat cs) off s e) NOLABEL 0%nat s HM).
    - exists (skipn (N.to_nat (e - s)) (skipn (N.to_nat (s - off)) (concat cs))). unfold slice. symmetry. apply firstn_skipn.
    - destruct (best _ _ _ _ _ _); [discriminate|auto]. }
  unfold hits_of in Hin. apply in_map_iff in Hin. destruct Hin as (h & Eh & Hh). apply filter_In in Hh.
  destruct Hh as (Hh & Hl). apply N.eqb_eq in Hl. injection Eh as <- <-. exists h. auto.
Qed.

(** C03. *)
Theorem compiled_chunking_invariant : forall cs1 cs2 off hits1 vs1 hits2 vs2,
  concat cs1 = concat cs2 -> off + N.of_nat (length (concat cs1)) < two64 -> bytes (concat cs1) ->
  session fuel P (stream_calls off cs1) = Ok (hits1, vs1) ->
  session fuel P (stream_calls off cs2) = Ok (hits2, vs2) ->
  forall l, hits_of l hits1 = hits_of l hits2.
Proof.
  destruct (compiled_runnable _ _ _ _ _ G HF C) as (A & F & first & HFu & R & Q).
  exact (chunking_invariant P A F first fuel R ltac:(lia)).
Qed.

(** C04. *)
Theorem compiled_returned_offset : forall cs c off h0 vs r more rs hits1 vs1 hits2 vs2,
  let all := concat (cs ++ [c]) ++ concat more ++ concat rs in
  off + N.of_nat (length all) < two64 -> bytes all ->
  session fuel P (chunk_calls off (cs ++ [c])) = Ok (h0, vs ++ [r]) ->
  session fuel P (stream_calls off (cs ++ [c])) = Ok (hits1, vs1) ->
  session fuel P (chunk_calls off ((cs ++ [c]) ++ more) ++
     resolve_calls (off + N.of_nat (length (concat ((cs ++ [c]) ++ more)))) rs ++ [CClose true]) = Ok (hits2, vs2) ->
  r <= off + N.of_nat (length (concat (cs ++ [c]))) /\
  forall l, filter (fun x => fst x <? r) (hits_of l hits2) = filter (fun x => fst x <? r) (hits_of l hits1).
Proof.
  destruct (compiled_runnable _ _ _ _ _ G HF C) as (A & F & first & HFu & R & Q).
  exact (returned_offset_bounds P A F first fuel R ltac:(lia)).
Qed.

(** C06, C07 (the true part).  starts_with reports for each keyword at most the preferred
    match at the first byte, and all of these when the buffer has one byte or more than
    the filter offset plus one. *)
Theorem compiled_starts_with_partial : forall buf start hits vs l,
  start + N.of_nat (length buf) < two64 -> bytes buf ->
  session fuel P [CStarts buf start true] = Ok (hits, vs) ->
  (hits_of l hits = [] \/ exists e, preferred g l buf start start = Some e /\ hits_of l hits = [(start, e)]) /\
  (length buf = 1%nat \/ p_filterOff P + 1 < N.of_nat (length buf) ->
   hits_of l hits = map (fun e => (start, e)) (opt_list (preferred g l buf start start))).
Proof.
  intros buf start hits vs l Ho Hb E.
  destruct (compiled_runnable _ _ _ _ _ G HF C) as (A & F & first & HFu & R & Q).
  assert (Hfu: (F <= fuel)%nat) by lia.
  destruct (starts_with_preferred P A F first fuel R Hfu buf start hits vs [] [] [] Ho Hb E) as (H1 & _).
  assert (H2: hits_of l hits = [] \/ exists e, preferred g l buf start start = Some e /\ hits_of l hits = [(start, e)]).
  { destruct (H1 l) as [H|(e & He & H)]; auto. right. exists e. rewrite Q in He by auto. auto. }
  split; auto. intros Hlen. destruct (preferred g l buf start start) as [e|] eqn:Ep.
  - simpl. apply (starts_with_complete_partial P A F first fuel R Hfu buf start hits vs l e Ho Hb Hlen E).
    rewrite Q by auto. auto.
  - destruct H2 as [H|(e & He & _)]; [auto|discriminate].
Qed.

(** C08. *)
Theorem compiled_resolve_exact : forall cs rs off hits vs l,
  off + N.of_nat (length (concat cs ++ concat rs)) < two64 -> bytes (concat cs) -> bytes (concat rs) ->
  session fuel P
    (chunk_calls off cs ++ resolve_calls (off + N.of_nat (length (concat cs))) rs ++ [CClose true]) = Ok (hits, vs) ->
  exists full fvs, session fuel P (stream_calls off (cs ++ rs)) = Ok (full, fvs) /\
    hits_of l hits = filter (fun x => fst x <? off + N.of_nat (length (concat cs))) (hits_of l full).
Proof.
  destruct (compiled_runnable _ _ _ _ _ G HF C) as (A & F & first & HFu & R & Q).
  exact (resolve_exact P A F first fuel R ltac:(lia)).
Qed.

(** C09.  Searching with a filter that lets everything pass reports the same hits. *)
Theorem compiled_filter_irrelevant : forall cs off hits1 vs1 hits2 vs2,
  off + N.of_nat (length (concat cs)) < two64 -> bytes (concat cs) ->
  session fuel P (stream_calls off cs) = Ok (hits1, vs1) ->
  session fuel {| p_words := p_words P; p_maxLabel := p_maxLabel P; p_maxCheck := p_maxCheck P;
                  p_filterOff := 0; p_filter := all_pass |} (stream_calls off cs) = Ok (hits2, vs2) ->
  forall l, hits_of l hits1 = hits_of l hits2.
Proof.
  intros cs off hits1 vs1 hits2 vs2.
  destruct (compiled_runnable _ _ _ _ _ G HF C) as (A & F & first & HFu & R & Q).
  exact (filter_irrelevant P A F first fuel cs off hits1 vs1 hits2 vs2 R ltac:(lia)).
Qed.
End Compiled.

(** * An example: the automaton of keywords 0 "(a|b|c|d)+e" and 1 "ab?" *)
Local Notation NL := 4294967295.
Definition ex_g : nfa :=
  [ mkV None false NL [1; 2; 3; 4; 5]%nat [];
    mkV (Some (TByte 97)) false 0 [1; 2; 3; 4; 6]%nat [0; 1; 2; 3; 4]%nat;
    mkV (Some (TByte 98)) false 0 [1; 2; 3; 4; 6]%nat [0; 1; 2; 3; 4]%nat;
    mkV (Some (TByte 99)) false 0 [1; 2; 3; 4; 6]%nat [0; 1; 2; 3; 4]%nat;
    mkV (Some (TByte 100)) false 0 [1; 2; 3; 4; 6]%nat [0; 1; 2; 3; 4]%nat;
    mkV (Some (TByte 97)) true 1 [7]%nat [0]%nat;
    mkV (Some (TByte 101)) true NL []%nat [1; 2; 3; 4]%nat;
    mkV (Some (TByte 98)) true NL []%nat [5]%nat ].
Definition ex_K (v : nat) : N := match v with O => NL | 5%nat => 1 | 7%nat => 1 | _ => 0 end.

Lemma ex_cases v x : nth_error ex_g v = Some x -> In (v, x) (combine (seq 0 8) ex_g).
Proof.
  intros H. do 8 (destruct v as [|v]; [injection H as <-; vm_compute; tauto|]). destruct v; discriminate.
Qed.

Ltac ex_all H := apply ex_cases in H; vm_compute in H;
  repeat match type of H with _ \/ _ => destruct H as [H|H] end; [..|try destruct H];
  try (injection H as <- <-).

Lemma ex_edge v c : edge ex_g v c -> In (v, c) (flat_map (fun v => map (pair v) (outs ex_g v)) (seq 0 8)).
Proof.
  intros H. assert (Hv: (v < 8)%nat).
  { unfold edge, outs in H. destruct (nth_error ex_g v) eqn:E; [|easy].
    change 8%nat with (length ex_g). apply nth_error_Some. congruence. }
  apply in_flat_map. exists v. split; [apply in_seq; lia|]. apply in_map. exact H.
Qed.

Ltac ex_edges H := apply ex_edge in H; vm_compute in H;
  repeat match type of H with _ \/ _ => destruct H as [H|H] end; [..|try destruct H]; injection H as <- <-.

Lemma ex_good : good ex_g ex_K.
Proof.
  constructor; [constructor|].
  - eexists. repeat split. discriminate.
  - intros v x Hv H. ex_all H; try easy; (split; [eexists; split; [reflexivity|simpl; lia]|easy]).
  - intros v c H. ex_edges H; simpl; lia.
  - intros v Hv. simpl in Hv.
    assert (R1: forall c, In c [1; 2; 3; 4; 5]%nat -> reach ex_g c) by (intros c Hc; apply (reach_step _ 0%nat); [constructor|exact Hc]).
    destruct v as [|v]; [constructor|]. do 5 (destruct v as [|v]; [apply R1; simpl; tauto|]).
    destruct v as [|v]; [apply (reach_step _ 1%nat); [apply R1; simpl; tauto|vm_compute; tauto]|].
    destruct v as [|v]; [apply (reach_step _ 5%nat); [apply R1; simpl; tauto|vm_compute; tauto]|]. lia.
  - intros v x H. ex_all H; vm_compute; discriminate.
  - reflexivity.
  - intros v c H. ex_edges H; simpl; auto; intros X; exfalso; apply X; reflexivity.
  - intros v x H Hm. ex_all H; simpl in *; discriminate.
  - intros v x H. ex_all H; simpl; auto.
  - intros v c x H HK H2. ex_edges H; try discriminate HK; injection H2 as <-; reflexivity.
  - intros d c x H. discriminate.
Qed.

Example ex_compilable : compilable ex_g /\ fits32 ex_g.
Proof.
  split; [constructor|vm_compute; reflexivity].
  - intros v x H. ex_all H; simpl; repeat (constructor; [simpl; lia|]); constructor.
  - intros v x H. ex_all H; simpl; auto; right; vm_compute; reflexivity.
  - vm_compute. reflexivity.
  - exists 5%nat. eexists. split; reflexivity.
Qed.

(** Searching "xabcez" at offset 10 in two buffers: keyword 0 matches "abce", keyword 1 "ab". *)
Example ex_search : rmap (fun P => session 200 P (chunk_calls 10 [[120; 97; 98]; [99; 101; 122]] ++ [CClose true]))
    (createProgram 8 81 ex_g) = Ok (Ok ([mkHit 11 13 1; mkHit 11 15 0], [11; 16; 0])) /\
  preferred ex_g 0 [120; 97; 98; 99; 101; 122] 10 11 = Some 15 /\
  preferred ex_g 1 [120; 97; 98; 99; 101; 122] 10 11 = Some 13.
Proof. vm_compute. auto. Qed.

(** * Where code generation is wrong *)

(** In a jump table the entry 0 means "no transition", but a table entry for a state that
    does nothing but continue with the only successor of the root is the address of that
    successor, which is 0.  Automaton of "(ac|ad|ae|af)*a[bg]" as built by NFABuilder (state 1
    is 'a'); the other conditions all hold, but on "acab" the match [0,4) is lost. *)
Definition zero_g : nfa :=
  [ mkV None false NL [1]%nat [];
    mkV (Some (TByte 97)) false 0 [2; 3; 4; 5; 6]%nat [0; 2; 3; 4; 5]%nat;
    mkV (Some (TByte 99)) false NL [1]%nat [1]%nat;
    mkV (Some (TByte 100)) false NL [1]%nat [1]%nat;
    mkV (Some (TByte 101)) false NL [1]%nat [1]%nat;
    mkV (Some (TByte 102)) false NL [1]%nat [1]%nat;
    mkV (Some (TEither 98 103)) true NL []%nat [1]%nat ].
Definition zero_K (v : nat) : N := match v with O => NL | _ => 0 end.

Lemma zero_cases v x : nth_error zero_g v = Some x -> In (v, x) (combine (seq 0 7) zero_g).
Proof.
  intros H. do 7 (destruct v as [|v]; [injection H as <-; vm_compute; tauto|]). destruct v; discriminate.
Qed.

Lemma zero_edge v c : edge zero_g v c -> In (v, c) (flat_map (fun v => map (pair v) (outs zero_g v)) (seq 0 7)).
Proof.
  intros H. assert (Hv: (v < 7)%nat).
  { unfold edge, outs in H. destruct (nth_error zero_g v) eqn:E; [|easy].
    change 7%nat with (length zero_g). apply nth_error_Some. congruence. }
  apply in_flat_map. exists v. split; [apply in_seq; lia|]. apply in_map. exact H.
Qed.

Ltac zero_all H := apply zero_cases in H; vm_compute in H;
  repeat match type of H with _ \/ _ => destruct H as [H|H] end; [..|try destruct H];
  try (injection H as <- <-).
Ltac zero_edges H := apply zero_edge in H; vm_compute in H;
  repeat match type of H with _ \/ _ => destruct H as [H|H] end; [..|try destruct H]; injection H as <- <-.

Lemma zero_good0 : good0 zero_g zero_K.
Proof.
  constructor.
  - eexists. repeat split. discriminate.
  - intros v x Hv H. zero_all H; try easy; (split; [eexists; split; [reflexivity|simpl; lia]|easy]).
  - intros v c H. zero_edges H; simpl; lia.
  - intros v Hv. simpl in Hv.
    assert (R1: reach zero_g 1) by (apply (reach_step _ 0%nat); [constructor|vm_compute; tauto]).
    destruct v as [|v]; [constructor|]. destruct v as [|v]; [auto|].
    do 5 (destruct v as [|v]; [apply (reach_step _ 1%nat); [auto|vm_compute; tauto]|]). lia.
  - intros v x H. zero_all H; vm_compute; discriminate.
  - reflexivity.
  - intros v c H. zero_edges H; simpl; auto; intros X; exfalso; apply X; reflexivity.
  - intros v x H Hm. zero_all H; simpl in *; discriminate.
  - intros v x H. zero_all H; simpl; auto.
  - intros v c x H HK H2. zero_edges H; try discriminate HK; injection H2 as <-; reflexivity.
Qed.

Theorem landing_zero_refuted : exists g K P hits vs,
  good0 g K /\ fits32 g /\ compilable g /\ createProgram 7 64 g = Ok P /\
  matches g 0 (slice [97; 99; 97; 98] 0 0 4) /\
  session 200 P (chunk_calls 0 [[97; 99; 97; 98]] ++ [CClose true]) = Ok (hits, vs) /\ hits = [mkHit 2 4 0].
Proof.
  destruct (createProgram 7 64 zero_g) as [P| | |] eqn:E; try (vm_compute in E; discriminate).
  exists zero_g, zero_K, P, [mkHit 2 4 0], [4; 0].
  split; [apply zero_good0|]. split; [vm_compute; reflexivity|]. split; [constructor|].
  - intros v x H. zero_all H; simpl; repeat (constructor; [simpl; lia|]); constructor.
  - intros v x H. zero_all H; simpl; auto; right; vm_compute; reflexivity.
  - vm_compute. reflexivity.
  - exists 6%nat. eexists. split; reflexivity.
  - split; [exact E|]. split.
    + unfold matches, slice. simpl.
      apply (acc_step _ _ _ _ (mkV None false NL [1]%nat []) _ _ 1%nat); [reflexivity|simpl; auto|reflexivity|].
      eapply (acc_step _ _ _ _ _ _ _ 2%nat); [reflexivity|simpl; auto|reflexivity|].
      eapply (acc_step _ _ _ _ _ _ _ 1%nat); [reflexivity|simpl; auto|reflexivity|].
      eapply (acc_step _ _ _ _ _ _ _ 6%nat); [reflexivity|simpl; auto 10|reflexivity|].
      eapply acc_match; [reflexivity|reflexivity|reflexivity].
    + split; [|reflexivity]. vm_compute in E. injection E as <-. vm_compute. reflexivity.
Qed.

(** Successor lists with repetitions: when all successors of a state are entered on the
    same byte, the size computed for the jump table is smaller than what is written: the
    table is written past the end of the program (if more code followed, over that code,
    ending in the exception "whoa, big trouble"). *)
Definition dup_g : nfa :=
  [ mkV None false NL [1]%nat [];
    mkV (Some (TByte 120)) false 0 [2; 2; 3; 3]%nat [0]%nat;
    mkV (Some (TByte 97)) true NL []%nat [1; 1]%nat;
    mkV (Some (TByte 97)) true NL []%nat [1; 1]%nat ].

Theorem duplicate_edges_refuted : exists g K, good g K /\ fits32 g /\ createProgram 4 25 g = UB.
Proof.
  exists dup_g, (fun v => match v with O => NL | _ => 0 end).
  assert (HC: forall v x, nth_error dup_g v = Some x -> In (v, x) (combine (seq 0 4) dup_g)).
  { intros v x H. do 4 (destruct v as [|v]; [injection H as <-; vm_compute; tauto|]). destruct v; discriminate. }
  assert (HE: forall v c, edge dup_g v c -> In (v, c) (flat_map (fun v => map (pair v) (outs dup_g v)) (seq 0 4))).
  { intros v c H. assert (Hv: (v < 4)%nat).
    { unfold edge, outs in H. destruct (nth_error dup_g v) eqn:E; [|easy]. change 4%nat with (length dup_g). apply nth_error_Some. congruence. }
    apply in_flat_map. exists v. split; [apply in_seq; lia|]. apply in_map. exact H. }
  Ltac dup_all HC H := apply HC in H; vm_compute in H;
    repeat match type of H with _ \/ _ => destruct H as [H|H] end; [..|try destruct H]; try (injection H as <- <-).
  split; [constructor; [constructor|]|].
  - eexists. repeat split. discriminate.
  - intros v x Hv H. dup_all HC H; try easy; (split; [eexists; split; [reflexivity|simpl; lia]|easy]).
  - intros v c H. dup_all HE H; simpl; lia.
  - intros v Hv. simpl in Hv.
    assert (R1: reach dup_g 1) by (apply (reach_step _ 0%nat); [constructor|vm_compute; tauto]).
    destruct v as [|v]; [constructor|]. destruct v as [|v]; [auto|].
    do 2 (destruct v as [|v]; [apply (reach_step _ 1%nat); [auto|vm_compute; tauto]|]). lia.
  - intros v x H. dup_all HC H; vm_compute; discriminate.
  - reflexivity.
  - intros v c H. dup_all HE H; simpl; auto; intros X; exfalso; apply X; reflexivity.
  - intros v x H Hm. dup_all HC H; simpl in *; discriminate.
  - intros v x H. dup_all HC H; simpl; auto.
  - intros v c x H HK H2. dup_all HE H; try discriminate HK; injection H2 as <-; reflexivity.
  - intros d c x H. vm_compute in H. injection H as <-. intros Hc H Ho. dup_all HC H; simpl in *; try discriminate; easy.
  - split; vm_compute; reflexivity.
Qed.
Print Assumptions compile_succeeds.
Print Assumptions compiled_preference.
Print Assumptions compiled_search_safe.
Print Assumptions compiled_hits_leftmost.
Print Assumptions compiled_hits_well_formed.
Print Assumptions compiled_no_false_hits.
Print Assumptions compiled_no_missed_match.
Print Assumptions compiled_chunking_invariant.
Print Assumptions compiled_returned_offset.
Print Assumptions compiled_starts_with_partial.
Print Assumptions compiled_resolve_exact.
Print Assumptions compiled_filter_irrelevant.
Print Assumptions landing_zero_refuted.
Print Assumptions duplicate_edges_refuted.
