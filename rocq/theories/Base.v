(** Common definitions: outcomes, monad, list update, machine integers. *)
From Coq Require Export List Arith NArith ZArith Lia Bool.
From Coq Require Export ZifyBool ZifyNat ZifyN.
Export ListNotations.
Ltac Zify.zify_post_hook ::= Z.div_mod_to_equations.

#[global] Arguments N.add : simpl never.
#[global] Arguments N.sub : simpl never.
#[global] Arguments N.mul : simpl never.
#[global] Arguments N.pow : simpl never.
#[global] Arguments N.div : simpl never.
#[global] Arguments N.modulo : simpl never.
#[global] Arguments N.to_nat : simpl never.
#[global] Arguments N.of_nat : simpl never.
#[global] Arguments N.eqb : simpl never.
#[global] Arguments N.ltb : simpl never.
#[global] Arguments N.leb : simpl never.
#[global] Arguments Z.add : simpl never.
#[global] Arguments Z.sub : simpl never.
#[global] Arguments Z.mul : simpl never.
#[global] Arguments Z.pow : simpl never.
#[global] Arguments Z.div : simpl never.
#[global] Arguments Z.modulo : simpl never.
#[global] Arguments Z.eqb : simpl never.
#[global] Arguments Z.ltb : simpl never.
#[global] Arguments Z.leb : simpl never.

(** Outcome of modelled C++ code.  [UB] is undefined behaviour (a read or write
    outside an object, a null dereference); [Fuel] says that the recursion bound given
    to the model was too small; [Throw] is a C++ exception. *)
Inductive res (A : Type) : Type :=
| Ok (a : A)
| UB
| Fuel
| Throw.
Arguments Ok {A} a.
Arguments UB {A}.
Arguments Fuel {A}.
Arguments Throw {A}.

Definition bind {A B} (r : res A) (f : A -> res B) : res B :=
  match r with Ok a => f a | UB => UB | Fuel => Fuel | Throw => Throw end.

Notation "x <- r ;; k" := (bind r (fun x => k))
  (at level 61, r at next level, right associativity).
Notation "' p <- r ;; k" := (bind r (fun p => k))
  (at level 61, p pattern, r at next level, right associativity).

Lemma bind_ok {A B} (r : res A) (f : A -> res B) b :
  bind r f = Ok b -> exists a, r = Ok a /\ f a = Ok b.
Proof. destruct r; simpl; try discriminate. eauto. Qed.

(** Reading a vector element; outside the vector is undefined behaviour. *)
Definition get {A} (l : list A) (i : nat) : res A :=
  match nth_error l i with Some a => Ok a | None => UB end.

(** Replacing a vector element in place. *)
Fixpoint upd {A} (l : list A) (i : nat) (a : A) : list A :=
  match l, i with
  | [], _ => []
  | _ :: t, O => a :: t
  | h :: t, S j => h :: upd t j a
  end.

Definition set_at {A} (l : list A) (i : nat) (a : A) : res (list A) :=
  if (i <? length l)%nat then Ok (upd l i a) else UB.

Lemma upd_length {A} (l : list A) i a : length (upd l i a) = length l.
Proof. revert i; induction l as [|h t IH]; intros [|i]; simpl; auto. Qed.

Lemma nth_upd_same {A} (l : list A) i a :
  (i < length l)%nat -> nth_error (upd l i a) i = Some a.
Proof. revert i; induction l as [|h t IH]; intros [|i]; simpl; intros; try lia; auto.
       apply IH; lia. Qed.

Lemma nth_upd_other {A} (l : list A) i j a :
  i <> j -> nth_error (upd l i a) j = nth_error l j.
Proof. revert i j; induction l as [|h t IH]; intros [|i] [|j]; simpl; intros; try lia; auto. Qed.

Lemma get_ok {A} (l : list A) i a : get l i = Ok a <-> nth_error l i = Some a.
Proof. unfold get; destruct (nth_error l i); split; congruence. Qed.

Lemma get_lt {A} (l : list A) i : (i < length l)%nat -> exists a, get l i = Ok a.
Proof.
  intros H; unfold get. destruct (nth_error l i) eqn:E; eauto.
  apply nth_error_None in E; lia.
Qed.

Lemma get_ok_lt {A} (l : list A) i a : get l i = Ok a -> (i < length l)%nat.
Proof. rewrite get_ok. intros H. apply nth_error_Some; congruence. Qed.

Definition two8 : N := 256%N.
Definition two16 : N := 65536%N.
Definition two24 : N := 16777216%N.
Definition two32 : N := 4294967296%N.
Definition two64 : N := 18446744073709551616%N.

Lemma nth_error_ext {A} (l1 l2 : list A) :
  (forall i, nth_error l1 i = nth_error l2 i) -> l1 = l2.
Proof.
  revert l2; induction l1 as [|a l1 IH]; intros [|b l2] H; auto.
  - specialize (H O); discriminate.
  - specialize (H O); discriminate.
  - f_equal; [specialize (H O); simpl in H; congruence|].
    apply IH; intros i; specialize (H (S i)); auto.
Qed.
