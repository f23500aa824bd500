(** Sets of code points kept as a sorted vector of range end points,
    include/rangeset.h.

    Simplifications: [size_type] and [T] are unbounded (the values stored never exceed the
    universe size, a template parameter that fits [T]); [M] is the template parameter N,
    the size of the universe.  The comparison operators <, >, <=, >= (lexicographic on the
    vector), the iterators (pairs of neighbouring elements) and printing are left out. *)
From Verif Require Import Base.
Open Scope N_scope.

Notation rset := (list N).

(** std::lower_bound on a sorted vector: the number of leading elements below [x]. *)
Fixpoint lower_bound (v : rset) (x : N) : nat :=
  match v with [] => O | a :: t => if a <? x then S (lower_bound t x) else O end.

(** std::upper_bound on a sorted vector: the number of leading elements not above [x]. *)
Fixpoint upper_bound (v : rset) (x : N) : nat :=
  match v with [] => O | a :: t => if a <=? x then S (upper_bound t x) else O end.

(** rangeset.h:185-198 *)
Definition rs_test (v : rset) (pos : N) : bool :=
  let i := lower_bound v pos in
  match nth_error v i with
  | None => false
  | Some e => if Nat.odd i then pos <? e else pos =? e
  end.

(** rangeset.h:393-435 *)
Definition rs_insert (v : rset) (first last : N) : rset :=
  if first =? last then v else
  let l := lower_bound v first in
  let u := (l + upper_bound (skipn l v) last)%nat in
  if (l =? length v)%nat || (u =? 0)%nat
  then firstn l v ++ [first; last] ++ skipn l v                  (* 401-403 *)
  else
    let insertFirst := negb (Nat.odd l) in                       (* 407-414 *)
    let insertLast := negb (Nat.odd u) in                        (* 416-423 *)
    firstn l v ++ (if insertFirst then [first] else [])          (* 425-433 *)
      ++ (if insertLast then [last] else []) ++ skipn u v.

(** rangeset.h:343-345 *)
Definition rs_full (M : N) : rset := [0; M].

(** rangeset.h:364-383.  [vec.back()] of an empty vector is undefined. *)
Definition rs_flip (M : N) (v : rset) : res rset :=
  match v with
  | [] => Ok (rs_full M)
  | a :: t =>
      let v1 := if a =? 0 then t else 0 :: v in
      match rev v1 with
      | [] => UB
      | b :: r => Ok (if b =? M then rev r else v1 ++ [M])
      end
  end.

(** rangeset.h:437-441 *)
Definition rs_erase (M : N) (v : rset) (first last : N) : res rset :=
  w <- rs_flip M v ;; rs_flip M (rs_insert w first last).

(** rangeset.h:139-147; [i] steps by two, reading [*(i+1)].  The self-assignment test is
    not needed for values: the union of a set with itself. *)
Fixpoint rs_or (v r : rset) : res rset :=
  match r with
  | [] => Ok v
  | a :: b :: t => rs_or (rs_insert v a b) t
  | [_] => UB
  end.

(** rangeset.h:133-137 *)
Definition rs_and (M : N) (v r : rset) : res rset :=
  nv <- rs_flip M v ;; nr <- rs_flip M r ;; o <- rs_or nv nr ;; rs_flip M o.

(** rangeset.h:149-152 *)
Definition rs_xor (M : N) (v r : rset) : res rset :=
  nr <- rs_flip M r ;; a <- rs_and M v nr ;;
  nv <- rs_flip M v ;; b <- rs_and M nv r ;; rs_or a b.

(** rangeset.h:154-157 *)
Definition rs_sub (M : N) (v r : rset) : res rset := nr <- rs_flip M r ;; rs_and M v nr.

(** rangeset.h:347-354 *)
Definition rs_set (M : N) (v : rset) (pos : N) (value : bool) : res rset :=
  if value then Ok (rs_insert v pos (pos + 1)) else rs_erase M v pos (pos + 1).

(** rangeset.h:385-387 *)
Definition rs_flip_at (M : N) (v : rset) (pos : N) : res rset := rs_set M v pos (negb (rs_test v pos)).

(** rangeset.h:243-253 *)
Definition rs_any (v : rset) : bool := match v with [] => false | _ => true end.
Definition rs_all (M : N) (v : rset) : bool :=
  match v with [a; b] => (a =? 0) && (b =? M) | _ => false end.

(** rangeset.h:255-262 *)
Fixpoint rs_count (v : rset) : res N :=
  match v with
  | [] => Ok 0
  | a :: b :: t => c <- rs_count t ;; Ok (b - a + c)
  | [_] => UB
  end.

(** rangeset.h:45 *)
Definition rs_range_ctor (first last : N) : rset := [first; last].

(** rangeset.h:63-86 (construction from a bitset of BN bits): [bits] are the bits from
    position [i]; the inner loop (73-78) finds the end [j] of a run. *)
Fixpoint run_length (bits : list bool) : nat :=
  match bits with true :: t => S (run_length t) | _ => O end.

Fixpoint rs_of_bits (M : N) (BN : N) (skip : nat) (i : N) (bits : list bool) : rset :=
  match bits with
  | [] => []
  | b :: t =>
      match skip with
      | S k => rs_of_bits M BN k (i + 1) t
      | O =>
          if b then
            let j := i + 1 + N.of_nat (run_length t) in
            if j <? BN                                   (* 74-77: a zero found at j *)
            then i :: j :: rs_of_bits M BN (N.to_nat (j - i)) (i + 1) t
            else if j =? M                               (* 79-81 *)
            then i :: j :: rs_of_bits M BN (N.to_nat (j - i)) (i + 1) t
            else rs_of_bits M BN (N.to_nat (j - i)) (i + 1) t
          else rs_of_bits M BN O (i + 1) t
      end
  end.

Definition rs_bitset_ctor (M : N) (bits : list bool) : rset :=
  rs_of_bits M (N.of_nat (length bits)) O 0 bits.
