(** Numeric escapes: include/parseutil.h:37-140 and src/lib/parseutil.cpp:29-62.  Characters are
    code points; [None] is the result -1; the remaining characters are returned as well. *)
From Verif Require Import Base.
Open Scope Z_scope.

(** parseHexChar, parseutil.cpp:29-58; -1 for other characters. *)
Definition parseHexChar (c : Z) : Z :=
  if (48 <=? c) && (c <=? 57) then c - 48
  else if (65 <=? c) && (c <=? 70) then c - 65 + 10
  else if (97 <=? c) && (c <=? 102) then c - 97 + 10
  else -1.

(** parseOctChar, parseutil.cpp:60-62 *)
Definition parseOctChar (c : Z) : Z := if (48 <=? c) && (c <=? 55) then c - 48 else -1.

(** parseHexByte, parseutil.h:39-53; <<= and |= on int. *)
Definition parseHexByte (s : list Z) : Z * list Z :=
  match s with
  | [] => (-1, s)
  | a :: t =>
      let val := parseHexChar a in
      match t with
      | [] => (-1, t)
      | b :: r => if val <? 0 then (-1, t)
                  else let v := Z.lor (Z.shiftl val 4) (parseHexChar b) in ((if v <? 0 then -1 else v), r)
      end
  end.

(** The loop of parseHexCodePoint, parseutil.h:62-101, over the [n] characters before [end]. *)
Fixpoint hex_loop (n : nat) (val : Z) (s : list Z) : Z * list Z :=
  match n with
  | O => (-1, s)
  | S k =>
      match s with
      | [] => (-1, s)
      | c :: t =>
          if (48 <=? c) && (c <=? 57) then hex_loop k (Z.lor (Z.shiftl val 4) (c - 48)) t
          else if (65 <=? c) && (c <=? 70) then hex_loop k (Z.lor (Z.shiftl val 4) (c - 65 + 10)) t
          else if (97 <=? c) && (c <=? 102) then hex_loop k (Z.lor (Z.shiftl val 4) (c - 97 + 10)) t
          else if c =? 125 then ((if 1114111 <? val then -1 else val), t)
          else (-1, t)
      end
  end.
Definition parseHexCodePoint (s : list Z) : Z * list Z :=
  match s with
  | [] => (-1, s)
  | c :: _ => if c =? 125 then (-1, s) else hex_loop (Nat.min 7 (length s)) 0 s
  end.

(** parseOctByte, parseutil.h:108-126 *)
Fixpoint oct_loop (n : nat) (oct : Z) (s : list Z) : Z * list Z :=
  match n with
  | O => (oct, s)
  | S k =>
      match s with
      | [] => (oct, s)
      | c :: t => let d := parseOctChar c in if d =? -1 then (oct, s) else oct_loop k (Z.lor (Z.shiftl oct 3) d) t
      end
  end.
Definition parseOctByte (s : list Z) : Z * list Z :=
  let (v, r) := oct_loop (Nat.min 3 (length s)) 0 s in ((if 255 <? v then -1 else v), r).

(** parseNamedCodePoint, parseutil.h:163-188, the form {U+h...h}; a name is asked of ICU. *)
Definition parseNamedHex (s : list Z) : option (Z * list Z) :=
  match s with
  | [] => Some (-1, s)
  | c :: t => if negb (c =? 123) then Some (-1, t)
              else match t with
                   | 85 :: 43 :: r => Some (parseHexCodePoint r)
                   | _ => None
                   end
  end.
