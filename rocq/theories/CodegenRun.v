(** Compiled programs satisfy the conditions under which the search engine is proved
    correct, and match what the automaton matches. *)
From Verif Require Import Base InstrModel NfaModel CodegenModel CodegenSpec CodegenLayout CodegenCode CodegenAnn CodegenWf CodegenSem CodegenFilter.
From Verif Require Import VmModel VmSpec VmIdeal VmSim VmSearch VmGeneric VmCalls VmCheck VmRunnable.
Open Scope N_scope.

Lemma hd_error_nil {A} (l : list A) : hd_error l = None -> l = [].
Proof. destruct l; [auto|discriminate]. Qed.

Theorem compiled_runnable fuel1 fuel2 g K P : good g K -> fits32 g -> createProgram fuel1 fuel2 g = Ok P ->
  exists A F first, (F <= 2 * length (p_words P))%nat /\ runnable P A F first /\
    forall l w off s, bytes w ->
      hd_error (ends_at F P first l w off s) = best g l NOLABEL (skipn (N.to_nat (s - off)) w) 0 s.
Proof.
  intros G HF E. destruct (createProgram_written _ _ _ _ _ G HF E) as (h & order & off & fl & Ev & L & WR & Eb & Eo & Ef).
  destruct (root_first g K h order P G L WR) as (first & H1 & H2).
  exists (An g K h order), (Fu h), first. split.
  { rewrite (wr_len _ _ _ _ WR). unfold Fu. lia. }
  split.
  - constructor.
    + exact (compiled_wf g K h order P G L WR).
    + exact H1.
    + exact (root_arrive g K h order P G L WR).
    + intros w o l Hb Hlen Hp.
      specialize (H2 l w o Hb).
      assert (Hd: hd_error (map snd (flat_map (fut (Fu h) P l w o) (new_threads first o))) = None).
      { rewrite hd_flat. unfold fh in H2. rewrite H2.
        unfold filter_pass in Hp. inv_bind Hp. inv_bind Hp. injection Hp as Hp.
        apply get_ok in E0, E1. rewrite Eo in *. rewrite Ef in Hp.
        exact (bestPair_sound fuel2 g off fl Eb l w o _ _ Hb E0 E1 Hp). }
      apply hd_error_nil in Hd. destruct (flat_map _ _); [auto|discriminate].
  - intros l w o s Hb. unfold ends_at. rewrite hd_flat. apply H2.
    unfold bytes in *. rewrite <- (firstn_skipn (N.to_nat (s - o)) w) in Hb. apply Forall_app in Hb. apply Hb.
Qed.

(** Selection depends only on the preferred matches. *)
Lemma leftmost_hd M1 M2 stop m hs : (forall s, hd_error (M1 s) = hd_error (M2 s)) ->
  leftmost M1 stop m hs -> leftmost M2 stop m hs.
Proof.
  intros HM H. induction H.
  - constructor. intros s H1 H2. apply hd_error_nil. rewrite <- HM, H; auto.
  - econstructor; eauto.
    + intros s' H5 H6. apply hd_error_nil. rewrite <- HM, H1; auto.
    + rewrite <- HM. auto.
Qed.
