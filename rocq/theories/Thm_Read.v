(** C41: the tool searches exactly the bytes of the file, in order, whatever the timing. *)
From Verif Require Import Base ReadModel.
Open Scope nat_scope.

(** Each call starts where the one before ended. *)
Fixpoint consecutive (off : nat) (calls : list (nat * list N)) : Prop :=
  match calls with
  | [] => True
  | (o, l) :: t => o = off /\ consecutive (off + length l) t
  end.
Definition searched (calls : list (nat * list N)) : list N := concat (map snd calls).

Lemma consecutive_snoc calls : forall off o l,
  consecutive off calls -> o = off + length (searched calls) -> consecutive off (calls ++ [(o, l)]).
Proof.
  induction calls as [|[o' l'] t IH]; intros off o l C E; cbn [consecutive app searched map concat] in *.
  - split; auto. cbn [length] in E. lia.
  - destruct C as [-> C]. split; auto. apply IH; auto. rewrite app_length in E. unfold searched. cbn [snd] in E. lia.
Qed.
Lemma searched_snoc calls o l : searched (calls ++ [(o, l)]) = searched calls ++ l.
Proof. unfold searched. rewrite map_app, concat_app. cbn. rewrite app_nil_r. auto. Qed.

Definition pc_inv (bs : nat) (file : list N) (s : st) : Prop :=
  match s_pc s with
  | PStart => s_task s = None /\ s_calls s = [] /\ s_rest s = file
  | PWait => exists got dn, s_task s = Some (mkTask (s_next s) bs got dn) /\ got <= bs /\ (dn = true -> got = bs \/ s_rest s = []) /\
      file = searched (s_calls s) ++ firstn got (s_bufs s (s_next s)) ++ s_rest s
  | PCheck b n => s_task s = None /\ b = s_next s /\ n <= bs /\ (n = bs \/ s_rest s = []) /\
      file = searched (s_calls s) ++ firstn n (s_bufs s b) ++ s_rest s
  | PNext b n => s_task s = None /\ b = s_next s /\ 0 < n <= bs /\ (n = bs \/ s_rest s = []) /\
      file = searched (s_calls s) ++ firstn n (s_bufs s b) ++ s_rest s
  | PSearch b n seen => exists got dn, b = negb (s_next s) /\ s_task s = Some (mkTask (s_next s) bs got dn) /\ 0 < n <= bs /\ got <= bs /\
      (dn = true -> got = bs \/ s_rest s = []) /\
      length seen <= n /\ seen = firstn (length seen) (s_bufs s b) /\
      file = searched (s_calls s) ++ firstn n (s_bufs s b) ++ firstn got (s_bufs s (s_next s)) ++ s_rest s
  | PLast b n => s_task s = None /\ n = 0 /\ s_rest s = [] /\ file = searched (s_calls s)
  | PDone => s_task s = None /\ exists calls, s_calls s = calls ++ [(length file, [])] /\ Forall (fun c => 0 < length (snd c) <= bs) calls /\ searched calls = file
  end.
Record inv (bs : nat) (file : list N) (s : st) : Prop := mkInv {
  i_len : forall i, length (s_bufs s i) = bs;
  i_off : s_pc s <> PDone -> s_off s = length (searched (s_calls s));
  i_con : consecutive 0 (s_calls s);
  i_blk : s_pc s <> PDone -> Forall (fun c => 0 < length (snd c) <= bs) (s_calls s);
  i_pc : pc_inv bs file s
}.

Lemma firstn_upd (l : list N) k c : k < length l -> firstn (S k) (upd l k c) = firstn k l ++ [c].
Proof. revert k; induction l as [|h t IH]; intros [|k] H; cbn [length upd firstn app] in *; try lia; auto. f_equal. apply IH. lia. Qed.
Lemma firstn_snoc (l : list N) k c : nth_error l k = Some c -> firstn (S k) l = firstn k l ++ [c].
Proof. revert k; induction l as [|h t IH]; intros [|k] H; cbn in *; try discriminate; [congruence|]. f_equal. apply IH. auto. Qed.

Lemma step_inv bs file s s' : 0 < bs -> inv bs file s -> step bs s s' -> inv bs file s'.
Proof.
  intros Hbs [HL HO HC HB HP] Hs. destruct Hs; cbn [s_pc s_task s_rest s_bufs s_next s_off s_calls] in *.
  - (* copy *)
    assert (L' : forall i, length (setbuf bufs b (upd (bufs b) got c) i) = bs).
    { intros i. unfold setbuf. destruct (Bool.eqb b i) eqn:E; [rewrite upd_length|]; auto. }
    split; cbn [s_pc s_task s_rest s_bufs s_next s_off s_calls]; auto.
    unfold pc_inv in *; cbn [s_pc s_task s_rest s_bufs s_next s_off s_calls] in *. destruct p.
    + destruct HP as [HP _]; discriminate.
    + destruct HP as (g & dn & E & Hg & Hd & Hf). injection E as -> -> -> <-. exists (S g), false. split; [auto|]. split; [lia|]. split; [discriminate|].
      unfold setbuf. rewrite Bool.eqb_reflx, firstn_upd by (rewrite HL; lia). rewrite Hf, <- app_assoc. auto.
    + destruct HP as [HP _]; discriminate.
    + destruct HP as [HP _]; discriminate.
    + destruct HP as (g & dn & Eb & E & Hn & Hg & Hd & Hs & He & Hf). injection E as -> -> -> <-. exists (S g), false.
      assert (Ne : Bool.eqb nx buf = false) by (subst buf; destruct nx; auto).
      split; auto. split; auto. split; [lia|]. split; [lia|]. split; [discriminate|]. split; auto.
      unfold setbuf. rewrite Ne, Bool.eqb_reflx, firstn_upd by (rewrite HL; lia). split; auto. rewrite Hf at 1. rewrite <- !app_assoc. auto.
    + destruct HP as [HP _]; discriminate.
    + destruct HP as [HP _]; discriminate.
  - (* end *)
    split; cbn [s_pc s_task s_rest s_bufs s_next s_off s_calls]; auto.
    unfold pc_inv in *; cbn [s_pc s_task s_rest s_bufs s_next s_off s_calls] in *. destruct p; try (destruct HP as [HP _]; discriminate).
    + destruct HP as (g & dn & E & Hg & Hd & Hf). injection E as -> -> -> <-. exists g, true. repeat split; auto.
    + destruct HP as (g & dn & Eb & E & Hn & Hg & Hd & Hs & He & Hf). injection E as -> -> -> <-. exists g, true. repeat split; auto; lia.
  - (* start *)
    unfold pc_inv in HP. rewrite H in HP. destruct HP as (Ht & Hc & Hr). unfold launch. split; cbn [s_pc s_task s_rest s_bufs s_next s_off s_calls]; auto.
    + intros _. apply HO. congruence.
    + intros _. rewrite Hc. constructor.
    + unfold pc_inv; cbn [s_pc s_task s_rest s_bufs s_next s_off s_calls]. exists 0, false. rewrite Hc, Hr. cbn. split; [auto|]. split; [lia|]. split; [discriminate|auto].
  - (* get *)
    unfold pc_inv in HP; cbn [s_pc s_task s_rest s_bufs s_next s_off s_calls] in HP. destruct HP as (g & dn & E & Hg & Hd & Hf). injection E as -> -> -> <-.
    split; cbn [s_pc s_task s_rest s_bufs s_next s_off s_calls]; auto; try (intros _; first [apply HO; discriminate|apply HB; discriminate]).
    unfold pc_inv; cbn [s_pc s_task s_rest s_bufs s_next s_off s_calls]. repeat split; auto.
  - (* check *)
    unfold pc_inv in HP; cbn [s_pc s_task s_rest s_bufs s_next s_off s_calls] in HP. destruct HP as (-> & -> & Hn & Hd & Hf).
    assert (ND : PCheck nx n <> PDone) by discriminate.
    split; cbn [s_pc s_task s_rest s_bufs s_next s_off s_calls]; auto.
    unfold pc_inv; cbn [s_pc s_task s_rest s_bufs s_next s_off s_calls]. destruct n.
    + destruct Hd as [Hd|Hd]; [lia|]. repeat split; auto. rewrite Hf, Hd. cbn. rewrite app_nil_r. auto.
    + repeat split; auto; lia.
  - (* next *)
    unfold pc_inv in HP. rewrite H in HP. destruct HP as (Ht & Hb & Hn & Hd & Hf). unfold launch.
    assert (ND : s_pc s <> PDone) by (rewrite H; discriminate).
    split; cbn [s_pc s_task s_rest s_bufs s_next s_off s_calls]; auto.
    unfold pc_inv; cbn [s_pc s_task s_rest s_bufs s_next s_off s_calls]. exists 0, false. subst b. rewrite Bool.negb_involutive. split; [auto|]. split; [auto|]. split; [lia|]. split; [lia|]. split; [discriminate|]. split; [cbn; lia|]. split; auto.
  - (* byte *)
    unfold pc_inv in HP; cbn [s_pc s_task s_rest s_bufs s_next s_off s_calls] in HP. destruct HP as (g & dn & Eb & E & Hn & Hg & Hd & Hs & He & Hf).
    assert (ND : PSearch b n seen <> PDone) by discriminate.
    split; cbn [s_pc s_task s_rest s_bufs s_next s_off s_calls]; auto.
    unfold pc_inv; cbn [s_pc s_task s_rest s_bufs s_next s_off s_calls]. exists g, dn. rewrite app_length. cbn [length]. rewrite Nat.add_1_r.
    rewrite (firstn_snoc _ _ _ H0), <- He. repeat split; auto; lia.
  - (* searched *)
    unfold pc_inv in HP; cbn [s_pc s_task s_rest s_bufs s_next s_off s_calls] in HP. destruct HP as (g & dn & Eb & E & Hn & Hg & Hd & Hs & He & Hf).
    assert (ND : PSearch b n seen <> PDone) by discriminate. specialize (HO ND). specialize (HB ND).
    split; cbn [s_pc s_task s_rest s_bufs s_next s_off s_calls]; auto.
    + intros _. rewrite searched_snoc, app_length. lia.
    + apply consecutive_snoc; auto.
    + intros _. apply Forall_app. split; auto. constructor; auto. cbn [snd]. lia.
    + unfold pc_inv; cbn [s_pc s_task s_rest s_bufs s_next s_off s_calls]. exists g, dn. repeat split; auto.
      rewrite searched_snoc, <- app_assoc. rewrite Hf at 1. do 2 f_equal. rewrite He, H. auto.
  - (* last *)
    unfold pc_inv in HP; cbn [s_pc s_task s_rest s_bufs s_next s_off s_calls] in HP. destruct HP as (-> & -> & -> & Hf).
    assert (ND : PLast b 0 <> PDone) by discriminate. specialize (HO ND). specialize (HB ND).
    split; cbn [s_pc s_task s_rest s_bufs s_next s_off s_calls]; auto; try (intros C; exfalso; apply C; reflexivity).
    + apply consecutive_snoc; auto.
    + unfold pc_inv; cbn [s_pc s_task s_rest s_bufs s_next s_off s_calls]. split; auto. exists calls. repeat split; auto. cbn. rewrite HO, Hf. auto.
Qed.

Lemma reach_inv bs file bufs s : 0 < bs -> (forall i, length (bufs i) = bs) -> steps bs (start_state file bufs) s -> inv bs file s.
Proof.
  intros Hbs HL H. remember (start_state file bufs) as s0 eqn:E. induction H as [|s t u Hst IH Hstep]; subst.
  - split; cbn; auto; repeat split; auto.
  - eapply step_inv; eauto.
Qed.

(** While lg_search (and the callback which prints hits) reads a block, the background thread never writes
    to the same array, and the block holds the bytes of the file at the offset passed. *)
Theorem block_is_stable bs file bufs s : 0 < bs -> (forall i, length (bufs i) = bs) -> steps bs (start_state file bufs) s ->
  forall b n seen, s_pc s = PSearch b n seen ->
  (forall t, s_task s = Some t -> t_buf t <> b) /\ firstn n (s_bufs s b) = firstn n (skipn (s_off s) file) /\ n <= length (s_bufs s b).
Proof.
  intros Hbs HL H b n seen Hp. pose proof (reach_inv _ _ _ _ Hbs HL H) as [IL IO IC IB IP]. unfold pc_inv in IP. rewrite Hp in IP.
  destruct IP as (g & dn & Eb & E & Hn & Hg & Hd & Hs & He & Hf). split; [|split].
  - intros t Et. rewrite E in Et. injection Et as <-. cbn. subst b. destruct (s_next s); discriminate.
  - rewrite IO by (rewrite Hp; discriminate). rewrite Hf. rewrite skipn_app, skipn_all, Nat.sub_diag. cbn [skipn app].
    rewrite firstn_app, firstn_firstn, Nat.min_id, firstn_length, IL. replace (n - Nat.min n bs) with 0 by lia. rewrite firstn_O, app_nil_r. auto.
  - rewrite IL. lia.
Qed.
Print Assumptions block_is_stable.

(** When searchFile is done, the calls of lg_search cover the file: consecutive non-empty blocks of at most
    the block size, then one empty block at its end. *)
Theorem file_searched_exactly bs file bufs s : 0 < bs -> (forall i, length (bufs i) = bs) -> steps bs (start_state file bufs) s ->
  s_pc s = PDone ->
  exists calls, s_calls s = calls ++ [(length file, [])] /\ concat (map snd calls) = file /\
    consecutive 0 (s_calls s) /\ Forall (fun c => 0 < length (snd c) <= bs) calls.
Proof.
  intros Hbs HL H Hp. pose proof (reach_inv _ _ _ _ Hbs HL H) as [IL IO IC IB IP]. unfold pc_inv in IP. rewrite Hp in IP.
  destruct IP as (_ & calls & E & F & C). exists calls. auto.
Qed.
Print Assumptions file_searched_exactly.

(** And it always gets done: no execution is infinite, and none is stuck before the end. *)
Definition weight (s : st) : nat :=
  60 * length (s_rest s) +
  match s_task s with None => 0 | Some t => 50 * t_got t + (if t_done t then 0 else 5) end +
  match s_pc s with
  | PStart => 30 | PWait => 20
  | PCheck _ n => match n with O => 10 | _ => 19 + 50 * n end
  | PNext _ n => 18 + 50 * n
  | PSearch _ n seen => (n - length seen) + 21
  | PLast _ _ => 5 | PDone => 0
  end.

Theorem file_search_ends bs file bufs : 0 < bs -> (forall i, length (bufs i) = bs) ->
  (forall s, steps bs (start_state file bufs) s -> s_pc s <> PDone -> exists s', step bs s s') /\
  Acc (fun t s => steps bs (start_state file bufs) s /\ step bs s t) (start_state file bufs).
Proof.
  intros Hbs HL. split.
  - intros s H Hp. pose proof (reach_inv _ _ _ _ Hbs HL H) as [IL IO IC IB IP]. unfold pc_inv in IP. destruct s as [p t rest bf nx off calls].
    cbn [s_pc s_task s_rest s_bufs s_next s_off s_calls] in *. destruct p.
    + eexists. apply SStart. auto.
    + destruct IP as (g & dn & -> & Hg & Hd & _). destruct dn; [eexists; apply SGet|].
      destruct rest as [|c rest]; [eexists; apply SEnd; auto|]. destruct (Nat.eq_dec g bs); [eexists; apply SEnd; auto|]. eexists; apply SCopy. lia.
    + eexists; apply SCheck.
    + eexists. eapply SNext. cbn. eauto.
    + destruct IP as (g & dn & Eb & E & Hn & Hg & Hd & Hs & He & Hf). destruct (Nat.eq_dec (length seen) n); [eexists; apply SSearched; auto|].
      destruct (nth_error (bf buf) (length seen)) as [c|] eqn:En; [eexists; eapply SByte; eauto; lia|]. apply nth_error_None in En. rewrite IL in En. lia.
    + eexists; apply SLast.
    + congruence.
  - assert (W : forall s s', inv bs file s -> step bs s s' -> weight s' < weight s).
    { intros s s' I Hs. destruct I as [_ _ _ _ IP]. unfold pc_inv in IP. unfold weight. destruct Hs; unfold launch; cbn [s_pc s_task s_rest s_bufs s_next s_off s_calls t_got t_done length] in *; try lia.
      - rewrite H in *. destruct IP as (-> & _). lia.
      - destruct got; lia.
      - destruct n; lia.
      - rewrite H in *. destruct IP as (-> & _ & Hn & _). lia.
      - rewrite app_length. cbn [length]. lia. }
    assert (A : forall k s, weight s < k -> Acc (fun t s => steps bs (start_state file bufs) s /\ step bs s t) s).
    { induction k as [|k IH]; intros s Hk; [lia|]. constructor. intros t [R T]. apply IH. pose proof (W s t (reach_inv _ _ _ _ Hbs HL R) T). lia. }
    eapply A. apply Nat.lt_succ_diag_r.
Qed.
Print Assumptions file_search_ends.

(** The memory mapped reader makes the same calls. *)
Theorem mapped_file_searched_exactly bs file : 0 < bs ->
  exists calls, mapped_calls (S (length file)) bs file 0 = calls ++ [(length file, [])] /\ concat (map snd calls) = file /\
    consecutive 0 (calls ++ [(length file, [])]) /\ Forall (fun c => 0 < length (snd c) <= bs) calls.
Proof.
  intros Hbs. enough (G : forall fuel rest off, length rest < fuel -> exists calls, mapped_calls fuel bs rest off = calls ++ [(off + length rest, [])] /\
    concat (map snd calls) = rest /\ consecutive off (calls ++ [(off + length rest, [])]) /\ Forall (fun c => 0 < length (snd c) <= bs) calls).
  { destruct (G (S (length file)) file 0 ltac:(lia)) as (c & E & R). exists c. auto. }
  induction fuel as [|f IH]; intros rest off Hf; [lia|]. cbn [mapped_calls]. destruct (Nat.min bs (length rest)) as [|m] eqn:Em.
  - assert (rest = []) by (destruct rest; cbn [length] in *; auto; lia). subst. exists []. cbn. rewrite Nat.add_0_r. auto.
  - destruct (IH (skipn (S m) rest) (off + S m)) as (calls & E & C & Co & F); [rewrite skipn_length; lia|]. rewrite skipn_length in *.
    replace (off + S m + (length rest - S m)) with (off + length rest) in * by lia.
    exists ((off, firstn (S m) rest) :: calls). rewrite E. cbn [app map concat snd consecutive]. rewrite C, firstn_length. replace (Nat.min (S m) (length rest)) with (S m) by lia.
    split; auto. split; [apply firstn_skipn|]. split; [auto|]. constructor; auto. cbn [snd]. rewrite firstn_length. lia.
Qed.
Print Assumptions mapped_file_searched_exactly.

(** A file of three bytes with blocks of two is searched in an execution which interleaves both threads. *)
Example read_case : exists s, steps 2 (start_state [1; 2; 3]%N (fun _ => [9; 9]%N)) s /\ s_pc s = PDone /\
  s_calls s = [(0, [1; 2]%N); (2, [3]%N); (3, [])].
Proof.
  assert (D : forall s t u, step 2 s t -> steps 2 t u -> steps 2 s u).
  { intros s t u H K. induction K; [eapply steps_step; [apply steps_refl|auto]|]. eapply steps_step; eauto. }
  eexists. split.
  { unfold start_state.
    eapply D; [apply SStart; reflexivity|]. unfold launch; cbn [s_rest s_bufs s_next s_off s_calls negb].
    do 2 (eapply D; [apply SCopy; lia|]). eapply D; [apply SEnd; auto|]. eapply D; [apply SGet|]. eapply D; [apply SCheck|].
    eapply D; [eapply SNext; reflexivity|]. unfold launch; cbn [s_rest s_bufs s_next s_off s_calls negb].
    eapply D; [eapply SByte; [cbn; lia|reflexivity]|]. eapply D; [apply SCopy; lia|].
    eapply D; [eapply SByte; [cbn; lia|reflexivity]|]. eapply D; [eapply SSearched; reflexivity|].
    eapply D; [apply SEnd; auto|]. eapply D; [apply SGet|]. eapply D; [apply SCheck|].
    eapply D; [eapply SNext; reflexivity|]. unfold launch; cbn [s_rest s_bufs s_next s_off s_calls negb].
    eapply D; [apply SEnd; auto|]. eapply D; [eapply SByte; [cbn; lia|reflexivity]|]. eapply D; [eapply SSearched; reflexivity|].
    eapply D; [apply SGet|]. eapply D; [apply SCheck|]. eapply D; [apply SLast|]. apply steps_refl. }
  split; reflexivity.
Qed.
