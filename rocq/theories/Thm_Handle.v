(** C15: pattern indices are unique, dense and stable. *)
From Verif Require Import Base HandleModel.
Open Scope Z_scope.

(** The specification: every FSM and every program has a list of patterns of its own. *)
Record spec := mkSpec { s_fsms : list (option (list info)); s_progs : list (option (list info)) }.
Definition owned (hs : list (option (list info))) (h : nat) : res (list info) :=
  match nth_error hs h with Some (Some l) => Ok l | _ => UB end.

Definition spec_exec (w : spec) (o : op) : res (spec * out) :=
  match o with
  | OCreateFsm => Ok (mkSpec (s_fsms w ++ [Some []]) (s_progs w), VHandle (Some (length (s_fsms w))))
  | OAdd f pat enc user compiles =>
      l <- owned (s_fsms w) f ;;
      if compiles then Ok (mkSpec (upd (s_fsms w) f (Some (l ++ [mkInfo pat enc user]))) (s_progs w), VInt (Z.of_nat (length l)))
      else Ok (w, VInt (-1))
  | OProgram f succeeds =>
      l <- owned (s_fsms w) f ;;
      if succeeds then Ok (mkSpec (s_fsms w) (s_progs w ++ [Some l]), VHandle (Some (length (s_progs w)))) else Ok (w, VHandle None)
  | OReload p => l <- owned (s_progs w) p ;; Ok (mkSpec (s_fsms w) (s_progs w ++ [Some l]), VHandle (Some (length (s_progs w))))
  | ODestroyFsm f => _ <- owned (s_fsms w) f ;; Ok (mkSpec (upd (s_fsms w) f None) (s_progs w), VNone)
  | ODestroyProg p => _ <- owned (s_progs w) p ;; Ok (mkSpec (s_fsms w) (upd (s_progs w) p None), VNone)
  | OFsmCount f => l <- owned (s_fsms w) f ;; Ok (w, VInt (Z.of_nat (length l)))
  | OProgCount p => l <- owned (s_progs w) p ;; Ok (w, VInt (Z.of_nat (length l)))
  | OFsmInfo f i => l <- owned (s_fsms w) f ;; x <- get l i ;; Ok (w, VInfo x)
  | OProgInfo p i => l <- owned (s_progs w) p ;; x <- get l i ;; Ok (w, VInfo x)
  end.
Fixpoint spec_run (w : spec) (os : list op) : res (list out) :=
  match os with
  | [] => Ok []
  | o :: t => ' (w', v) <- spec_exec w o ;; vs <- spec_run w' t ;; Ok (v :: vs)
  end.

Definition no_nul (o : op) : Prop :=
  match o with OAdd _ pat enc _ _ => ~ In 0%N pat /\ ~ In 0%N enc | _ => True end.

Lemma c_str_id s : ~ In 0%N s -> c_str s = s.
Proof.
  induction s as [|b s IH]; cbn; auto. intros H. destruct (N.eqb_spec b 0); [exfalso; apply H; auto|]. f_equal. apply IH. tauto.
Qed.

(** Handle lists of the two worlds agree. *)
Definition rel_hs (maps : list (list info)) (hs : list (option nat)) (ss : list (option (list info))) : Prop :=
  Forall2 (fun h s => match h, s with Some m, Some l => nth_error maps m = Some l | None, None => True | _, _ => False end) hs ss.
Definition rel (w : world) (s : spec) : Prop := rel_hs (w_maps w) (w_fsms w) (s_fsms s) /\ rel_hs (w_maps w) (w_progs w) (s_progs s).

Lemma rel_length maps hs ss : rel_hs maps hs ss -> length hs = length ss.
Proof. induction 1; cbn; auto. Qed.
Lemma rel_nth maps hs ss h : rel_hs maps hs ss ->
  match nth_error hs h, nth_error ss h with
  | Some (Some m), Some (Some l) => nth_error maps m = Some l
  | Some None, Some None => True | None, None => True | _, _ => False end.
Proof.
  intros H. revert h. induction H as [|x y hs ss R H IH]; intros [|h]; cbn [nth_error]; [exact I|exact I| |exact (IH h)]. destruct x, y; auto.
Qed.
Lemma rel_deref maps hs ss h : rel_hs maps hs ss ->
  (exists m l, deref hs h = Ok m /\ nth_error hs h = Some (Some m) /\ owned ss h = Ok l /\ nth_error maps m = Some l) \/ (deref hs h = UB /\ owned ss h = UB).
Proof.
  intros H. apply (rel_nth _ _ _ h) in H. unfold deref, owned. destruct (nth_error hs h) as [[m|]|], (nth_error ss h) as [[l|]|]; try contradiction; auto. left. exists m, l. auto.
Qed.
Lemma rel_grow maps x hs ss : rel_hs maps hs ss -> rel_hs (maps ++ [x]) hs ss.
Proof.
  intros H. induction H as [|a b hs ss R H IH]; constructor; auto. destruct a, b; auto. rewrite nth_error_app1; auto. apply nth_error_Some. congruence.
Qed.
Lemma rel_snoc maps hs ss a b : rel_hs maps hs ss -> rel_hs maps [a] [b] -> rel_hs maps (hs ++ [a]) (ss ++ [b]).
Proof. apply Forall2_app. Qed.
Lemma rel_upd maps hs ss h a b : rel_hs maps hs ss -> rel_hs maps [a] [b] -> rel_hs maps (upd hs h a) (upd ss h b).
Proof.
  intros H R. revert h. induction H as [|x y hs ss Rx H IH]; intros [|h]; cbn [upd]; try constructor; auto; [|apply IH]. inversion R; auto.
Qed.

(** A map to which nobody else refers can be changed. *)
Lemma refs_zero m hs : refs m hs = 0%nat -> forall h, nth_error hs h <> Some (Some m).
Proof.
  unfold refs. induction hs as [|a hs IH]; intros H [|h] E; cbn [nth_error filter length] in *; try discriminate.
  - injection E as ->. rewrite Nat.eqb_refl in H. discriminate.
  - apply (IH) in E; auto. destruct (match a with Some k => Nat.eqb k m | None => false end); [discriminate|auto].
Qed.
Lemma refs_pos m hs h : nth_error hs h = Some (Some m) -> (1 <= refs m hs)%nat.
Proof. intros E. destruct (refs m hs) eqn:R; [|lia]. exfalso. eapply refs_zero; eauto. Qed.
Lemma refs_one m hs h : nth_error hs h = Some (Some m) -> (refs m hs <= 1)%nat -> forall k, k <> h -> nth_error hs k <> Some (Some m).
Proof.
  revert h. induction hs as [|a hs IH]; intros [|h] E R [|k] N; cbn [nth_error] in *; try discriminate; try lia.
  - injection E as ->. unfold refs in R. cbn [filter] in R. rewrite Nat.eqb_refl in R. cbn [length] in R. apply refs_zero. unfold refs. lia.
  - intros F. injection F as ->. unfold refs in R. cbn [filter] in R. rewrite Nat.eqb_refl in R. cbn [length] in R.
    apply refs_pos in E. unfold refs in E. lia.
  - apply (IH h); auto. unfold refs in *. cbn [filter] in R. destruct (match a with Some k => Nat.eqb k m | None => false end); cbn [length] in R; lia.
Qed.
Lemma rel_hs_iff maps hs ss : rel_hs maps hs ss <-> length hs = length ss /\ forall h, match nth_error hs h, nth_error ss h with
  | Some (Some m), Some (Some l) => nth_error maps m = Some l
  | Some None, Some None => True | None, None => True | _, _ => False end.
Proof.
  split.
  - intros H. split; [eapply rel_length; eauto|]. intros h. apply rel_nth. auto.
  - revert ss. induction hs as [|a hs IH]; intros [|b ss] [L H]; try discriminate; constructor.
    + specialize (H 0%nat). cbn in H. destruct a, b; auto; contradiction.
    + apply IH. split; [cbn in L; lia|]. intros h. apply (H (S h)).
Qed.
Lemma rel_maps_upd maps m l hs ss : rel_hs maps hs ss -> refs m hs = 0%nat -> rel_hs (upd maps m l) hs ss.
Proof.
  rewrite !rel_hs_iff. intros [L H] R. split; auto. intros h. specialize (H h). pose proof (refs_zero m hs R h) as Z.
  destruct (nth_error hs h) as [[k|]|], (nth_error ss h) as [[x|]|]; auto. rewrite nth_upd_other; auto. congruence.
Qed.

Lemma label_small n : Z.of_nat n < 2147483648 -> as_label n = Z.of_nat n.
Proof.
  intros H. unfold as_label. rewrite Z.mod_small by lia. destruct (Z.ltb_spec (Z.of_nat n) 2147483648); auto. lia.
Qed.

Definition adds (os : list op) : nat := length (filter (fun o => match o with OAdd _ _ _ _ _ => true | _ => false end) os).
Definition small (w : spec) (k : nat) : Prop :=
  Z.of_nat k < 2147483648 /\ Forall (fun o => match o with Some l => (Z.of_nat (length l) + Z.of_nat k < 2147483648) | None => True end) (s_fsms w ++ s_progs w).
Lemma small_owned w k h l : small w k -> owned (s_fsms w) h = Ok l \/ owned (s_progs w) h = Ok l -> Z.of_nat (length l) + Z.of_nat k < 2147483648.
Proof.
  unfold small, owned. intros [_ S] H. rewrite Forall_forall in S.
  destruct H as [H|H]; [destruct (nth_error (s_fsms w) h) as [[x|]|] eqn:E|destruct (nth_error (s_progs w) h) as [[x|]|] eqn:E]; try discriminate; injection H as ->;
    apply nth_error_In in E; apply (S (Some l)); apply in_or_app; auto.
Qed.
Lemma Forall_upd {A} (P : A -> Prop) l i a : Forall P l -> P a -> Forall P (upd l i a).
Proof. intros H. revert i. induction H; intros [|i] Ha; cbn [upd]; auto. Qed.

Lemma step_rel w s o k : rel w s -> small s (k + (match o with OAdd _ _ _ _ _ => 1 | _ => 0 end)) -> no_nul o ->
  match exec w o, spec_exec s o with
  | Ok (w', v), Ok (s', v') => v = v' /\ rel w' s' /\ small s' k
  | UB, UB => True
  | _, _ => False
  end.
Proof.
  intros [RF RP] SM NN.
  assert (mono : forall a b, (a <= b)%nat -> small s b -> small s a).
  { unfold small. intros a b L [L' F]. split; [lia|]. revert F. apply Forall_impl. intros [l|]; auto. lia. }
  assert (LF := rel_length _ _ _ RF). assert (LP := rel_length _ _ _ RP).
  destruct o; cbn [exec spec_exec]; try rewrite Nat.add_0_r in SM.
  - rewrite LF. split; auto. split.
    + split; cbn [w_maps w_fsms w_progs s_fsms s_progs]; [|apply rel_grow; auto].
      apply rel_snoc; [apply rel_grow; auto|]. constructor; [|constructor]. rewrite nth_error_app2, Nat.sub_diag; auto.
    + destruct SM as [L SM]. split; auto. cbn [s_fsms s_progs]. rewrite Forall_app in *. destruct SM as [S1 S2]. split; auto.
      apply Forall_app. split; auto.
  - destruct (rel_deref _ _ _ f RF) as [(m & l & -> & Eh & El & Em)|[-> ->]]; cbn [bind]; auto.
    pose proof (small_owned _ _ _ _ SM (or_introl El)) as SL. rewrite El. unfold get. rewrite Em. cbn [bind]. destruct compiles.
    2:{ split; auto. split; [split; auto|]. eapply mono; [|eauto]. lia. }
    destruct NN as [N1 N2]. rewrite (c_str_id _ N1), (c_str_id _ N2). rewrite label_small by lia.
    assert (SM' : small (mkSpec (upd (s_fsms s) f (Some (l ++ [mkInfo pat enc user]))) (s_progs s)) k).
    { apply (mono k) in SM; [|lia]. destruct SM as [L SM]. split; auto. cbn [s_fsms s_progs]. rewrite Forall_app in *. destruct SM as [S1 S2]. split; auto.
      apply Forall_upd; auto. rewrite app_length. cbn [length]. lia. }
    destruct (Nat.ltb_spec 1 (refs m (w_fsms w) + refs m (w_progs w))) as [R|R].
    + split; auto. split; auto. split; cbn [w_maps w_fsms w_progs s_fsms s_progs]; [|apply rel_grow; auto].
      apply rel_upd; [apply rel_grow; auto|]. constructor; [|constructor]. rewrite nth_error_app2, Nat.sub_diag; auto.
    + split; auto. split; auto. pose proof (refs_pos _ _ _ Eh) as RPos. split; cbn [w_maps w_fsms w_progs s_fsms s_progs].
      * pose proof (refs_one _ _ _ Eh ltac:(lia)) as R1. rewrite rel_hs_iff in *. destruct RF as [L RF]. split; [rewrite upd_length; auto|].
        intros h. specialize (RF h). specialize (R1 h). destruct (Nat.eq_dec h f) as [->|Hh].
        { rewrite Eh in *. unfold owned in El. destruct (nth_error (s_fsms s) f) as [[l'|]|] eqn:E; try discriminate.
          rewrite nth_upd_same by (apply nth_error_Some; congruence). apply nth_upd_same. apply nth_error_Some. congruence. }
        { rewrite nth_upd_other by auto. specialize (R1 Hh). destruct (nth_error (w_fsms w) h) as [[k'|]|], (nth_error (s_fsms s) h) as [[l'|]|]; auto.
          rewrite nth_upd_other; auto. congruence. }
      * apply rel_maps_upd; auto. lia.
  - destruct (rel_deref _ _ _ f RF) as [(m & l & -> & Eh & El & Em)|[-> ->]]; cbn [bind]; auto. rewrite El. cbn [bind]. destruct succeeds; [|split; auto; split; auto; split; auto].
    rewrite LP. split; auto. split; [split; auto; cbn [w_maps w_fsms w_progs s_fsms s_progs]; apply rel_snoc; auto; constructor; auto|].
    pose proof (small_owned _ _ _ _ SM (or_introl El)) as SL. destruct SM as [L SM]. split; auto. cbn [s_fsms s_progs]. rewrite Forall_app in *. destruct SM as [S1 S2]. split; auto.
    apply Forall_app; split; auto.
  - destruct (rel_deref _ _ _ p RP) as [(m & l & -> & Eh & El & Em)|[-> ->]]; cbn [bind]; auto. rewrite El. unfold get. rewrite Em. cbn [bind].
    rewrite LP. split; auto. split; [split; cbn [w_maps w_fsms w_progs s_fsms s_progs]; [apply rel_grow; auto|apply rel_snoc; [apply rel_grow; auto|constructor; auto]]|].
    { rewrite nth_error_app2, Nat.sub_diag; auto. }
    pose proof (small_owned _ _ _ _ SM (or_intror El)) as SL. destruct SM as [L SM]. split; auto. cbn [s_fsms s_progs]. rewrite Forall_app in *. destruct SM as [S1 S2]. split; auto.
    apply Forall_app; split; auto.
  - destruct (rel_deref _ _ _ f RF) as [(m & l & -> & Eh & El & Em)|[-> ->]]; cbn [bind]; auto. rewrite El. cbn [bind]. split; auto. split.
    + split; auto. cbn [w_maps w_fsms w_progs s_fsms s_progs]. apply rel_upd; auto. constructor; auto.
    + destruct SM as [L SM]. split; auto. cbn [s_fsms s_progs]. rewrite Forall_app in *. destruct SM as [S1 S2]. split; auto. apply Forall_upd; auto.
  - destruct (rel_deref _ _ _ p RP) as [(m & l & -> & Eh & El & Em)|[-> ->]]; cbn [bind]; auto. rewrite El. cbn [bind]. split; auto. split.
    + split; auto. cbn [w_maps w_fsms w_progs s_fsms s_progs]. apply rel_upd; auto. constructor; auto.
    + destruct SM as [L SM]. split; auto. cbn [s_fsms s_progs]. rewrite Forall_app in *. destruct SM as [S1 S2]. split; auto. apply Forall_upd; auto.
  - destruct (rel_deref _ _ _ f RF) as [(m & l & -> & Eh & El & Em)|[-> ->]]; cbn [bind]; auto. rewrite El. unfold get. rewrite Em. cbn [bind].
    pose proof (small_owned _ _ _ _ SM (or_introl El)). rewrite Z.mod_small by lia. split; auto. split; auto. split; auto.
  - destruct (rel_deref _ _ _ p RP) as [(m & l & -> & Eh & El & Em)|[-> ->]]; cbn [bind]; auto. rewrite El. unfold get. rewrite Em. cbn [bind].
    pose proof (small_owned _ _ _ _ SM (or_intror El)). rewrite Z.mod_small by lia. split; auto. split; auto. split; auto.
  - destruct (rel_deref _ _ _ f RF) as [(m & l & -> & Eh & El & Em)|[-> ->]]; cbn [bind]; auto. rewrite El. unfold get. rewrite Em. cbn [bind].
    destruct (nth_error l i); cbn [bind]; auto. split; auto. split; auto. split; auto.
  - destruct (rel_deref _ _ _ p RP) as [(m & l & -> & Eh & El & Em)|[-> ->]]; cbn [bind]; auto. rewrite El. unfold get. rewrite Em. cbn [bind].
    destruct (nth_error l i); cbn [bind]; auto. split; auto. split; auto. split; auto.
Qed.

(** In every history of calls, in any order and on any number of handles, every result is as if each
    handle had a list of patterns of its own: the index returned for an added pattern is the number of
    those added before it, a failed addition adds nothing, and adding to an FSM changes no program. *)
Theorem pattern_indices_stable os : Forall no_nul os -> Z.of_nat (adds os) < 2 ^ 31 ->
  run (mkWorld [] [] []) os = spec_run (mkSpec [] []) os.
Proof.
  change (2 ^ 31) with 2147483648. intros NN L.
  enough (G : forall w s, rel w s -> small s (adds os) -> run w os = spec_run s os).
  { apply G; [split; constructor|split; auto; constructor]. }
  clear L. induction NN as [|o os N1 N2 IH]; intros w s R SM; cbn [run spec_run]; auto.
  assert (E : adds (o :: os) = (adds os + match o with OAdd _ _ _ _ _ => 1 | _ => 0 end)%nat) by (unfold adds; destruct o; cbn [filter length]; lia).
  rewrite E in SM. pose proof (step_rel w s o (adds os) R SM N1) as H.
  destruct (exec w o) as [[w' v]| | |], (spec_exec s o) as [[s' v']| | |]; try contradiction; cbn [bind]; auto. destruct H as (-> & R' & SM'). rewrite (IH _ _ R' SM'). auto.
Qed.
Print Assumptions pattern_indices_stable.

(** A pattern with a NUL in it (lg_parse_pattern_slice accepts one) is recorded only up to the NUL. *)
Theorem pattern_with_nul_refuted : exists os, run (mkWorld [] [] []) os <> spec_run (mkSpec [] []) os.
Proof. exists [OCreateFsm; OAdd 0 [97; 0; 98]%N [65]%N 0%N true; OFsmInfo 0 0]. vm_compute. discriminate. Qed.
Print Assumptions pattern_with_nul_refuted.

(** A program taken between additions keeps its list, and outlives its FSM. *)
Example handles_case :
  run (mkWorld [] [] []) [OCreateFsm; OAdd 0 [97]%N [65]%N 7%N true; OProgram 0 true; OAdd 0 [98]%N [65]%N 8%N false; OAdd 0 [99]%N [65]%N 9%N true;
    OProgCount 0; OFsmCount 0; ODestroyFsm 0; OProgInfo 0 0; OProgInfo 0 1] = UB /\
  run (mkWorld [] [] []) [OCreateFsm; OAdd 0 [97]%N [65]%N 7%N true; OProgram 0 true; OAdd 0 [98]%N [65]%N 8%N false; OAdd 0 [99]%N [65]%N 9%N true;
    OProgCount 0; OFsmCount 0; ODestroyFsm 0; OProgInfo 0 0] =
  Ok [VHandle (Some 0%nat); VInt 0; VHandle (Some 0%nat); VInt (-1); VInt 1; VInt 1; VInt 2; VNone; VInfo (mkInfo [97]%N [65]%N 7%N)].
Proof. vm_compute. auto. Qed.
