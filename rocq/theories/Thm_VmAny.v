(** Theorems about the search engine for arbitrary programs. *)
From Verif Require Import Base VmModel VmSpec VmIdeal VmSim VmSearch VmGeneric VmCalls VmStarts VmRunnable.
Open Scope N_scope.

(** C01.  In any history of search, resolve and close-out calls on a new context, a hit of
    a keyword starts at or after the end of the previous hit reported for that keyword. *)
Theorem hits_ordered : forall fuel P cs hits vs,
  Forall plain_call cs -> session fuel P cs = Ok (hits, vs) ->
  forall a h1 b h2 c, hits = a ++ h1 :: b ++ h2 :: c ->
    h_label h1 = h_label h2 -> (forall h, In h b -> h_label h <> h_label h1) ->
    h_end h1 <= h_start h2.
Proof.
  intros fuel P cs hits vs Hp H a h1 b h2 c E El Hb. unfold session in H. inv_bind H. destruct x as [first st].
  inv_bind H. destruct x as [st' vs']. injection H as <- _.
  apply init_state in E0. subst st.
  destruct (plain_calls_chain _ _ _ _ _ _ _ Hp E1) as (hs & Es & HC). simpl in Es. rewrite Es in E. subst hs.
  specialize (HC (h_label h1)). rewrite hits_of_app in HC.
  assert (EB: hits_of (h_label h1) (h1 :: b ++ h2 :: c) =
     (h_start h1, h_end h1) :: (h_start h2, h_end h2) :: hits_of (h_label h1) c).
  { clear - El Hb. unfold hits_of. simpl. rewrite N.eqb_refl. simpl. f_equal.
    induction b as [|x b IH]; simpl.
    - rewrite <- El, N.eqb_refl. auto.
    - destruct (N.eqb_spec (h_label x) (h_label h1)) as [Ex|]; [exfalso; eapply Hb; eauto; left; auto|].
      apply IH. intros h Hh. apply Hb. right; auto. }
  rewrite EB in HC. clear - HC. revert HC.
  match goal with |- chain ?m _ ?m' -> _ => generalize m m' end.
  induction (hits_of (h_label h1) a) as [|[s e] L IH]; intros m m' HC; simpl in HC.
  - destruct HC as (_ & HC & _). auto.
  - destruct HC as (_ & HC). eapply IH; eauto.
Qed.
Print Assumptions hits_ordered.

(** C05.  Calls after a reset report and return what they would on a new context. *)
Theorem reset_like_new : forall fuel P before_reset h0 v0 after,
  session fuel P before_reset = Ok (h0, v0) ->
  session fuel P (before_reset ++ CReset :: after) =
    ('(h1, v1) <- session fuel P after ;; Ok (h0 ++ h1, v0 ++ 0 :: v1)).
Proof.
  intros fuel P cs h0 v0 after H. unfold session in *.
  destruct (vm_init fuel P) as [[first st]| | |] eqn:Ei; try discriminate. cbn [bind] in *.
  pose proof (init_state _ _ _ _ Ei) as Est.
  rewrite vm_calls_app. destruct (vm_calls fuel P first st cs) as [[st1 v1]| | |] eqn:E1; try discriminate.
  cbn [bind] in *. injection H as <- <-.
  cbn [vm_calls vm_call bind].
  assert (ER: reset st1 = pre (s_hits st1) st).
  { apply len_calls in E1. unfold reset, pre, with_hits. rewrite E1. subst st. simpl. rewrite repeat_length, app_nil_r. auto. }
  rewrite ER, pre_calls.
  destruct (vm_calls fuel P first st after) as [[st2 v2]| | |]; auto.
Qed.
Print Assumptions reset_like_new.

(** Offsets of the bytes given to the search calls of a history. *)
Fixpoint searched (cs : list call) (o : N) : Prop :=
  match cs with
  | [] => False
  | CSearch b s _ :: r => (exists i, (i < length b)%nat /\ o = (s + N.of_nat i) mod two64) \/ searched r o
  | _ :: r => searched r o
  end.

Definition starts_call (c : call) : bool := match c with CStarts _ _ _ => true | _ => false end.
Definition search_call (c : call) : bool := match c with CSearch _ _ _ => true | _ => false end.
Definition offset64 (c : call) : Prop := match c with CSearch _ s _ => s < two64 | _ => True end.

(** C08.  After any history without starts_with, whatever follows that does not search
    (resolve, close-out, reset) reports only hits that start at an offset searched
    before. *)
Theorem resolve_starts_nothing : forall fuel P before_ after h0 v0 hits vs,
  Forall offset64 before_ -> forallb (fun c => negb (starts_call c)) before_ = true ->
  forallb (fun c => negb (starts_call c) && negb (search_call c)) after = true ->
  session fuel P before_ = Ok (h0, v0) -> session fuel P (before_ ++ after) = Ok (hits, vs) ->
  exists h1, hits = h0 ++ h1 /\ Forall (fun h => searched before_ (h_start h)) h1.
Proof.
  intros fuel P cs after h0 v0 hits vs Ho Hs Ha E0 E1. unfold session in *.
  destruct (vm_init fuel P) as [[first st]| | |] eqn:Ei; try discriminate. cbn [bind] in *.
  rewrite vm_calls_app in E1. destruct (vm_calls fuel P first st cs) as [[st1 v1]| | |] eqn:E2; try discriminate.
  cbn [bind] in *. injection E0 as <- <-.
  destruct (vm_calls fuel P first st1 after) as [[st2 v2]| | |] eqn:E3; try discriminate. cbn [bind] in E1.
  injection E1 as <- <-.
  pose proof (init_state _ _ _ _ Ei) as Est.
  assert (X1: sok2 (searched cs) [] st1).
  { eapply sok_calls; eauto.
    - clear - Ho Hs. rewrite forallb_forall in Hs. rewrite Forall_forall in *. intros c Hc.
      specialize (Hs c Hc). specialize (Ho c Hc). destruct c; simpl in *; auto; [|discriminate]. split; auto.
      intros i Hi. clear Hs Ho. induction cs as [|x cs IH]; [destruct Hc|]. destruct Hc as [->|Hc]; simpl; eauto.
      destruct x; auto.
    - subst st. split; [|constructor]. split; [constructor|]. exists []. split; auto. }
  destruct X1 as ((A & _) & B).
  assert (X2: sok2 (searched cs) (s_hits st1) st2).
  { eapply sok_calls; eauto.
    - clear - Ha. rewrite forallb_forall in Ha. rewrite Forall_forall. intros c Hc. specialize (Ha c Hc).
      destruct c; simpl in *; auto; discriminate.
    - split; auto. split; auto. exists []. rewrite app_nil_r. split; auto. }
  destruct X2 as ((_ & hs & E & Hh) & _). exists hs. split; auto.
Qed.
Print Assumptions resolve_starts_nothing.

(** C06, first part.  On a new context (or after a reset, by [reset_like_new]), every hit
    reported by starts_with starts at the start offset. *)
Theorem starts_with_at_start : forall fuel P buf start cb hits vs,
  session fuel P [CStarts buf start cb] = Ok (hits, vs) ->
  Forall (fun h => h_start h = start) hits.
Proof.
  intros fuel P buf start cb hits vs H. unfold session in H.
  destruct (vm_init fuel P) as [[first st]| | |] eqn:Ei; try discriminate. cbn [bind] in *.
  destruct (vm_calls fuel P first st [CStarts buf start cb]) as [[st1 v1]| | |] eqn:E1; try discriminate.
  cbn [bind] in H. injection H as <- <-. pose proof (init_state _ _ _ _ Ei) as Est.
  assert (X1: sok2 (fun o => o = start) [] st1).
  { eapply sok_calls; eauto.
    - constructor; auto. simpl. auto.
    - subst st. split; [|constructor]. split; [constructor|]. exists []. split; auto. }
  destruct X1 as ((_ & hs & E & Hh) & _). rewrite E. auto.
Qed.
Print Assumptions starts_with_at_start.

(** The demonstration program meets the hypotheses, with hits. *)
Example hits_ordered_example :
  session 20 demo [CSearch [97; 98; 98] 5 true; CSearch [98; 97; 98] 8 true; CClose true]
  = Ok ([mkHit 5 7 0; mkHit 6 9 1; mkHit 9 11 0; mkHit 10 11 1], [6; 10; 0]).
Proof. vm_compute. reflexivity. Qed.

Example reset_example :
  session 20 demo ([CSearch [97; 98; 98] 5 true] ++ CReset :: [CSearch [98] 0 true; CClose true])
  = Ok ([mkHit 5 7 0] ++ [mkHit 0 1 1], [6] ++ 0 :: [0; 0]).
Proof. vm_compute. reflexivity. Qed.

Example resolve_example :
  session 20 demo ([CSearch [97; 98] 5 true] ++ [CResolve [98; 97; 98] 7 true; CClose true])
  = Ok ([mkHit 5 7 0; mkHit 6 8 1], [6; 9; 0]).
Proof. vm_compute. reflexivity. Qed.

Example starts_example :
  session 20 demo [CStarts [98; 98; 97; 98] 3 true] = Ok ([mkHit 3 5 1], [0]).
Proof. vm_compute. reflexivity. Qed.
