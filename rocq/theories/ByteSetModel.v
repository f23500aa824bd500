(** Sets of bytes, include/byteset.h: a std::bitset<256> laid out as 32 bytes, bit i of the
    set being bit (i mod 8) of byte (i / 8) (the code relies on this layout, and on a
    little-endian machine for [for_each_set_bit]). *)
From Verif Require Import Base NfaModel.
Open Scope N_scope.

Notation bset := (list N).

Definition bs_wf (s : bset) : Prop := length s = 32%nat /\ Forall (fun b => b < 256) s.

(** byteset.h:27 *)
Definition bs_empty : bset := repeat 0 32.

(** std::bitset::test; a position outside throws. *)
Definition bs_test (s : bset) (i : N) : res bool :=
  if 256 <=? i then Throw else b <- get s (N.to_nat (i / 8)) ;; Ok (N.testbit b (i mod 8)).

(** std::bitset::set(pos, value); a position outside throws. *)
Definition bs_set1 (s : bset) (i : N) (v : bool) : res bset :=
  if 256 <=? i then Throw else
  b <- get s (N.to_nat (i / 8)) ;;
  set_at s (N.to_nat (i / 8)) (if v then N.setbit b (i mod 8) else N.clearbit b (i mod 8)).

(** The loops of byteset.h:59-61 ([aligned] stops at a multiple of 8) and 69-71. *)
Fixpoint bs_set_loop (aligned : bool) (n : nat) (s : bset) (beg end_ : N) (v : bool) : res (bset * N) :=
  match n with
  | O => Fuel
  | S k =>
      if (beg <? end_) && (negb aligned || negb (beg mod 8 =? 0))
      then s1 <- bs_set1 s beg v ;; bs_set_loop aligned k s1 (beg + 1) end_ v
      else Ok (s, beg)
  end.

(** std::fill(buf + first, buf + last, value), byteset.h:65; a backward range, or one
    reaching outside the object, is undefined. *)
Definition bs_fill (s : bset) (first last v : N) : res bset :=
  if (last <? first) || (N.of_nat (length s) <? last) then UB
  else Ok (firstn (N.to_nat first) s ++ repeat v (N.to_nat (last - first)) ++ skipn (N.to_nat last) s).

(** byteset.h:55-74; [end - beg] is computed modulo 2^64. *)
Definition bs_set (s : bset) (beg end_ : N) (v : bool) : res bset :=
  ' (s1, beg1) <- bs_set_loop true 9 s beg end_ v ;;
  ' (s2, beg2) <- (if 0 <? ((two64 + end_ - beg1) mod two64) / 8
                  then s' <- bs_fill s1 (beg1 / 8) (end_ / 8) (if v then 255 else 0) ;; Ok (s', end_ / 8 * 8)
                  else Ok (s1, beg1)) ;;
  ' (s3, _) <- bs_set_loop false 9 s2 beg2 end_ v ;; Ok s3.

(** byteset.h:45-53: memcmp, the sign of the first difference. *)
Fixpoint bs_compare (s t : bset) : comparison :=
  match s, t with
  | a :: s', b :: t' => match a ?= b with Eq => bs_compare s' t' | c => c end
  | _, _ => Eq
  end.

(** One of the four uint64_t words of byteset.h:78-80. *)
Fixpoint le_num (l : list N) : N := match l with [] => 0 | b :: t => b + 256 * le_num t end.
Definition bs_word (s : bset) (i : nat) : N := le_num (firstn 8 (skipn (8 * i) s)).

(** __builtin_ctzll, defined for non-zero arguments only *)
Fixpoint ctz_pos (p : positive) : N := match p with xO q => 1 + ctz_pos q | _ => 0 end.

(** byteset.h:81-89, the inner loop: the positions passed to the callback. *)
Fixpoint word_bits (n : nat) (i : nat) (w : N) : res (list N) :=
  match w with
  | 0 => Ok []
  | N.pos p =>
      match n with
      | O => Fuel
      | S k =>
          let lsb := N.land w ((two64 - w) mod two64) in        (* word & -word *)
          let index := N.shiftl (N.of_nat i) 6 + ctz_pos p in
          r <- word_bits k i (N.lxor w lsb) ;; Ok (index :: r)
      end
  end.

(** byteset.h:76-91 *)
Definition for_each_set_bit (s : bset) : res (list N) :=
  a <- word_bits 64 0 (bs_word s 0) ;; b <- word_bits 64 1 (bs_word s 1) ;;
  c <- word_bits 64 2 (bs_word s 2) ;; d <- word_bits 64 3 (bs_word s 3) ;; Ok (a ++ b ++ c ++ d).

(** The bitwise operators: bitset's flip, &=, |=; byteset.h:120-135. *)
Definition bs_not (s : bset) : bset := map (fun b => 255 - b) s.
Fixpoint bs_map2 (f : N -> N -> N) (s t : bset) : bset :=
  match s, t with a :: s', b :: t' => f a b :: bs_map2 f s' t' | _, _ => [] end.
Definition bs_and := bs_map2 N.land.
Definition bs_or := bs_map2 N.lor.
Definition bs_sub (s t : bset) := bs_and s (bs_not t).

(** The number whose bit i is bit i of the set, as used for [TSet] in NfaModel.v. *)
Definition bs_num (s : bset) : N := le_num s.

(** transitionfactory.h:69-122: the classification loop, over the positions still to be
    looked at.  [++high] is byte arithmetic. *)
Inductive stype := TyNone | TyOne | TyRange | TyTwo.

Fixpoint smallest_loop (s : N) (is : list N) (ty : stype) (low high : N) : option (stype * N * N) :=
  match is with
  | [] => Some (ty, low, high)
  | i :: r =>
      if N.testbit s i then
        match ty with
        | TyNone => smallest_loop s r TyOne i i
        | TyOne => if (high + 1) mod 256 =? i then smallest_loop s r TyRange low ((high + 1) mod 256)
                   else smallest_loop s r TyTwo low i
        | TyRange => if (high + 1) mod 256 =? i then smallest_loop s r TyRange low ((high + 1) mod 256)
                     else None                                 (* falls through to TWO: return *)
        | TyTwo => None
        end
      else smallest_loop s r ty low high
  end.

Definition all_bytes : list N := map N.of_nat (seq 0 256).

Definition getSmallest (s : N) : trans :=
  match smallest_loop s all_bytes TyNone 0 0 with
  | None => TSet s
  | Some (TyNone, _, _) => TSet s
  | Some (TyOne, low, _) => TByte low
  | Some (TyRange, low, high) => TRange low high
  | Some (TyTwo, low, high) => TEither low high
  end.

(** states.h:182-262 (TransitionComparator) on transitions whose sets are 32 bytes. *)
Inductive xtrans := XByte (b : N) | XEither (b1 b2 : N) | XRange (f l : N) | XSet (s : bset).

Definition xlt (a b : xtrans) : bool :=
  match a, b with
  | XByte x, XByte y => x <? y
  | XByte _, _ => true
  | XEither _ _, XByte _ => false
  | XEither x1 x2, XEither y1 y2 => if x1 <? y1 then true else if y1 <? x1 then false else x2 <? y2
  | XEither _ _, _ => true
  | XRange _ _, XByte _ | XRange _ _, XEither _ _ => false
  | XRange x1 x2, XRange y1 y2 => if x1 <? y1 then true else if y1 <? x1 then false else x2 <? y2
  | XRange _ _, XSet _ => true
  | XSet s, XSet t => match bs_compare s t with Lt => true | _ => false end
  | XSet _, _ => false
  end.

(** transitionfactory.h:124-127 on the set of exemplars, as the list of transitions made so
    far; the object returned is identified by its position.  std::set::find answers with an
    element equivalent under the comparator. *)
Fixpoint find_exemplar (l : list xtrans) (t : xtrans) (i : nat) : option nat :=
  match l with
  | [] => None
  | x :: r => if negb (xlt x t) && negb (xlt t x) then Some i else find_exemplar r t (S i)
  end.

Definition factory_get (l : list xtrans) (t : xtrans) : list xtrans * nat :=
  match find_exemplar l t 0 with Some i => (l, i) | None => (l ++ [t], length l) end.
