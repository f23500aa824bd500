(** C23: sparse sets behave as sets whatever garbage their memory held. *)
From Verif Require Import Base SparseSetModel SparseSetProofs.
Open Scope N_scope.

Definition in_range (m : N) (o : ss_op) : Prop :=
  match o with SAdd e => e < m | SClear => True end.

(** For every garbage content and every history of additions and clears, no access
    leaves the array and [find] answers membership among the values added since the
    last clear. *)
Theorem sparse_set_is_set : forall garbage m ops,
  length garbage = (2 * N.to_nat m)%nat -> 2 * m < two32 ->
  Forall (in_range m) ops ->
  exists s, ss_run (ss_resize garbage m) ops = Ok s /\
    forall e, e < m -> exists b, ss_find s e = Ok b /\ (b = true <-> In e (since_clear ops [])).
Proof.
  intros g m ops Hg Hm Hops.
  destruct (run_rep (ss_resize g m) [] ops) as (s & els & Hs & Hr & Hmx & Hin).
  { apply resize_rep; auto. } { exact Hops. }
  exists s. split; auto. intros e He.
  destruct (find_rep s els e Hr) as (b & Hb & Hbi). { rewrite Hmx; exact He. }
  exists b. split; auto. rewrite Hbi. apply Hin.
Qed.
Print Assumptions sparse_set_is_set.

(** Two contexts whose memory held different garbage answer alike. *)
Theorem sparse_set_garbage_independent : forall g1 g2 m ops e,
  length g1 = (2 * N.to_nat m)%nat -> length g2 = (2 * N.to_nat m)%nat -> 2 * m < two32 ->
  Forall (in_range m) ops -> e < m ->
  exists s1 s2, ss_run (ss_resize g1 m) ops = Ok s1 /\ ss_run (ss_resize g2 m) ops = Ok s2 /\
    ss_find s1 e = ss_find s2 e.
Proof.
  intros g1 g2 m ops e H1 H2 Hm Ho He.
  destruct (sparse_set_is_set g1 m ops H1 Hm Ho) as (s1 & Hs1 & F1).
  destruct (sparse_set_is_set g2 m ops H2 Hm Ho) as (s2 & Hs2 & F2).
  exists s1, s2. repeat split; auto.
  destruct (F1 e He) as (b1 & -> & B1), (F2 e He) as (b2 & -> & B2).
  f_equal. destruct b1, b2; intuition congruence.
Qed.
Print Assumptions sparse_set_garbage_independent.

(** The comment on include/sparseset.h:53 ("we don't have to do this") is wrong: without
    the zero fill, suitable garbage makes [find] succeed on an empty set because the
    32-bit sum wraps around. *)
Theorem sparse_set_fill_needed_refuted : exists garbage m e,
  length garbage = (2 * N.to_nat m)%nat /\ 2 * m < two32 /\ e < m /\
  ss_find (ss_resize_nofill garbage m) e = Ok true.
Proof. exists [1; 4294967294; 0; 0], 2, 1. repeat split. Qed.
Print Assumptions sparse_set_fill_needed_refuted.

Example sparse_set_example :
  exists s, ss_run (ss_resize [9; 9; 9; 9; 9; 9] 3) [SAdd 2; SClear; SAdd 0; SAdd 2; SAdd 0] = Ok s
   /\ ss_find s 2 = Ok true /\ ss_find s 1 = Ok false /\ ss_find s 0 = Ok true.
Proof. eexists. split; [vm_compute; reflexivity|]. repeat split. Qed.
