(** Specification of code generation: what an automaton matches, in order of preference,
    and the conditions on automata under which the code generator is used. *)
From Verif Require Import Base NfaModel.
From Verif Require Import VmModel.
Open Scope N_scope.

Fixpoint first_some {A B} (f : A -> option B) (l : list A) : option B :=
  match l with
  | [] => None
  | a :: r => match f a with Some b => Some b | None => first_some f r end
  end.

(** The preferred end of a match of keyword [l] by an automaton that has just entered state
    [v] with label [lab], the bytes [w] following at offset [pos]: first whatever the
    successors give, in their order, then the state itself if it is a match state.  A state
    with a label overrides the label. *)
Fixpoint best (g : nfa) (l lab : N) (w : list N) (v : nat) (pos : N) : option N :=
  match nth_error g v with
  | None => None
  | Some x =>
      let lab' := if x.(v_label) =? NOLABEL then lab else x.(v_label) in
      match (match w with
             | [] => None
             | b :: w' => first_some (fun c => if enters g c b then best g l lab' w' c (pos + 1) else None) x.(v_out)
             end) with
      | Some e => Some e
      | None => if x.(v_match) && (lab' =? l) then Some pos else None
      end
  end.

Definition edge (g : nfa) (v c : nat) : Prop := In c (outs g v).

Inductive reach (g : nfa) : nat -> Prop :=
| reach_root : reach g 0
| reach_step : forall v c, reach g v -> edge g v c -> reach g c.

Definition trans_ok (t : trans) : Prop :=
  match t with
  | TByte b => b < 256
  | TEither b1 b2 => b1 < 256 /\ b2 < 256
  | TRange f l => f <= l /\ l < 256
  | TSet s => s <> 0 /\ s < 2 ^ 256
  end.

(** Automata for the code generator.  [K v] is the keyword to which state [v] is committed,
    if all match states reachable from it are of one keyword. *)
Record good0 (g : nfa) (K : nat -> N) : Prop := {
  gd_root : exists x, nth_error g 0 = Some x /\ v_trans x = None /\ v_match x = false /\
                      v_label x = NOLABEL /\ v_in x = [] /\ v_out x <> [];
  gd_state : forall v x, v <> 0%nat -> nth_error g v = Some x ->
      (exists t, v_trans x = Some t /\ trans_ok t) /\ (v_out x = [] -> v_match x = true);
  gd_edge : forall v c, edge g v c -> c <> 0%nat /\ (c < length g)%nat;
  gd_reach : forall v, (v < length g)%nat -> reach g v;
  gd_label : forall v x, nth_error g v = Some x -> v_label x <= NOLABEL;
  gd_K0 : K 0%nat = NOLABEL;
  gd_Kedge : forall v c, edge g v c -> K v <> NOLABEL -> K c = K v;
  gd_Kmatch : forall v x, nth_error g v = Some x -> v_match x = true -> K v <> NOLABEL;
  gd_Klabel : forall v x, nth_error g v = Some x -> v_label x = NOLABEL \/ v_label x = K v;
  gd_Khead : forall v c x, edge g v c -> K v = NOLABEL -> nth_error g c = Some x -> v_label x = K c
}.

(** The last condition excludes automata for which the code generator is wrong.  *)
Record good (g : nfa) (K : nat -> N) : Prop := {
  gd_base :> good0 g K;
  (* see [landing_zero_refuted] in Thm_Codegen.v *)
  gd_zero : forall d c x, outs g 0 = [d] -> c <> 0%nat -> nth_error g c = Some x -> v_out x = [d] ->
      v_match x = true \/ v_label x <> NOLABEL
}.

(** A bound on the number of words of the program: 1 word for each label, check, 3 for a
    match, 9 for a transition and at most 257 + 512 * outdegree for the successors. *)
Definition size_bound (g : nfa) : N :=
  fold_right (fun x n => 271 + 512 * N.of_nat (length (v_out x)) + n) 2 g.

Definition fits32 (g : nfa) : Prop := size_bound g < two32.
