(** Printing hits: src/cmd/hitwriter.cpp:26-53, 96-117, 123-154 and 194-237.

    Simplifications:
    - a block is a list of bytes, a pointer into it an index;
    - a reverse_iterator is the index of its base;
    - std::string, streams and the cache of the last decoded hit are left out. *)
From Verif Require Import Base UtfModel EncModel DecModel.
Open Scope N_scope.

Definition LF : N := 10.
Definition CR : N := 13.

(** int i = lines + 1, with lines a size_t: the value converted to int. *)
Definition int_rounds (lines : N) : N :=
  let t := (lines + 1) mod two32 in if t <? 2147483648 then t else 0.

(** std::find over reverse_iterators: from base [p] down to base 0; the base of the result. *)
Fixpoint find_back (blk : list N) (p : nat) : res nat :=
  match p with
  | O => Ok O
  | S k => b <- get blk k ;; if b =? LF then Ok p else find_back blk k
  end.

(** 31-35; [lnl] is the base of lnl. *)
Fixpoint leading_loop (blk : list N) (rounds : nat) (lnl : nat) : res nat :=
  match rounds with
  | O => Ok lnl
  | S r => if (lnl =? 0)%nat then Ok lnl
           else p <- find_back blk (lnl - 1) ;; leading_loop blk r p
  end.

(** The loop stops after one round more than there are bytes. *)
Definition find_leading_context (blk : list N) (hbeg : nat) (lines : N) : res nat :=
  leading_loop blk (Nat.min (N.to_nat (N.min (int_rounds lines) (N.of_nat hbeg + 2))) (hbeg + 2)) (S hbeg).

(** std::find from [p] up to the end of the block, [n] bytes. *)
Fixpoint find_fwd (blk : list N) (n : nat) (p : nat) : res nat :=
  match n with
  | O => Ok p
  | S k => b <- get blk p ;; if b =? LF then Ok p else find_fwd blk k (S p)
  end.

(** 40-43; [next] is rnl + 1. *)
Fixpoint trailing_loop (blk : list N) (rounds : nat) (next : nat) : res nat :=
  match rounds with
  | O => Ok next
  | S r => if (next =? S (length blk))%nat then Ok next
           else p <- find_fwd blk (length blk - next) next ;; trailing_loop blk r (S p)
  end.

Definition find_trailing_context (blk : list N) (hend : nat) (lines : N) : res nat :=
  next <- trailing_loop blk (N.to_nat (N.min (int_rounds lines) (N.of_nat (length blk) + 2))) hend ;;
  if (S hend <? next)%nat && negb (next =? S (length blk))%nat then
    b <- get blk (next - 2) ;; if b =? CR then Ok (next - 2)%nat else Ok (next - 1)%nat
  else Ok (next - 1)%nat.

(** decodeContext, 194-237: the offset printed and the decoded text.  The block [blk] was read at
    offset [off] of the file; a negative number of context lines is None. *)
Definition decodeContext (blk : list N) (off : N) (c : chain) (start end_ : N) (before after : option N) : res (N * hitctx) :=
  let hbeg := N.to_nat (if start <? off then 0 else start - off) in
  let hend := N.to_nat (N.min ((end_ + two64 - off) mod two64) (N.of_nat (length blk))) in
  cbeg <- match before with None => Ok hbeg | Some l => find_leading_context blk hbeg l end ;;
  cend <- match after with None => Ok hend | Some l => find_trailing_context blk hend l end ;;
  let data := off + N.of_nat cbeg in
  (* lg_hit_context is given the bytes from cbeg to cend; it decodes from start - data on *)
  if (start <? data) || (data + N.of_nat (cend - cbeg) <? end_) || (end_ <? start) || (cend <? cbeg)%nat then UB
  else h <- hit_context (firstn (cend - cbeg) (skipn cbeg blk)) c (N.to_nat (start - data)) (N.to_nat (end_ - data)) (cend - cbeg) 65533 ;;
       Ok (data, h).

(** 105-116: the text of a context as it is printed, up to its first 0. *)
Fixpoint write_context (s : list N) : list N :=
  match s with
  | [] => []
  | b :: t => if b =? 0 then []
              else (if b =? 9 then [92; 116] else if b =? 10 then [92; 110] else if b =? 13 then [92; 114] else [b]) ++ write_context t
  end.

(** escapeControlChars, 123-154. *)
Definition escape_char (b : N) : list N :=
  if b =? 7 then [92; 97] else if b =? 8 then [92; 98] else if b =? 9 then [92; 116] else if b =? 10 then [92; 110]
  else if b =? 11 then [92; 118] else if b =? 12 then [92; 102] else if b =? 13 then [92; 114] else [b].
Definition escapeControlChars (s : list N) : list N := flat_map escape_char s.
