(** Encoders: turning a code point into bytes, and a set of code points into sequences of byte
    sets.  src/lib/{ascii,utf8,utfbase,encoderbase,byteencoder,charencoder,oceencoder}.cpp and
    include/encoders/*.h.

    Simplifications:
    - ICUEncoder, and so every encoding except ASCII, UTF-8, UTF-16 and UTF-32, is left out;
    - vectors of encodings that the code extends with push_back are kept in reverse while they
      are being collected (their order does not matter to what follows, see [sort] below);
    - std::sort is a parameter, any function returning a permutation of its argument, since the
      comparators do not tell equivalent elements apart and the result for those is unspecified. *)
From Verif Require Import Base UtfModel RangeSetModel ByteSetModel.
Open Scope N_scope.

(** oceencoder.cpp:30-63 *)
Definition OCE : list N := [
  65; 54; 19; 98; 168; 33; 110; 187; 244; 22; 204; 4; 127; 100; 232; 93;
  30; 242; 203; 42; 116; 197; 94; 53; 210; 149; 71; 158; 150; 45; 154; 136;
  76; 125; 132; 63; 219; 172; 49; 182; 72; 95; 246; 196; 216; 57; 139; 231;
  35; 59; 56; 142; 200; 193; 223; 37; 177; 32; 165; 70; 96; 78; 156; 251;
  170; 211; 86; 81; 69; 124; 85; 0; 7; 201; 43; 157; 133; 155; 9; 160;
  143; 173; 179; 15; 99; 171; 137; 75; 215; 167; 21; 90; 113; 102; 66; 191;
  38; 74; 107; 152; 250; 234; 119; 83; 178; 112; 5; 44; 253; 89; 58; 134;
  126; 206; 6; 235; 130; 120; 87; 199; 141; 67; 175; 180; 28; 212; 91; 205;
  226; 233; 39; 79; 195; 8; 114; 128; 207; 176; 239; 245; 40; 109; 190; 48;
  77; 52; 146; 213; 14; 60; 34; 50; 229; 228; 249; 159; 194; 209; 10; 129;
  18; 225; 238; 145; 131; 118; 227; 151; 230; 97; 138; 23; 121; 164; 183; 220;
  144; 122; 92; 140; 2; 166; 202; 105; 222; 80; 26; 17; 147; 185; 82; 135;
  88; 252; 237; 29; 55; 73; 27; 106; 224; 41; 51; 153; 189; 108; 217; 148;
  243; 64; 84; 111; 240; 198; 115; 184; 214; 62; 101; 24; 68; 31; 221; 103;
  16; 241; 12; 25; 236; 174; 3; 161; 20; 123; 169; 11; 255; 248; 163; 192;
  162; 1; 247; 46; 188; 36; 104; 117; 13; 254; 186; 47; 181; 208; 218; 61].

Inductive charset := ASCII | UTF8 | UTF16 (le : bool) | UTF32 (le : bool).

(** Encoders and the decorators around them: encoders/oceencoder.h, xorencoder.h, rotencoder.h. *)
Inductive encoder :=
| EBase (c : charset)
| EOCE (e : encoder)
| EXOR (key : N) (e : encoder)
| ERot (rot : N) (e : encoder).

(** ascii.cpp:20-31; the other character sets are those of UtfModel.v. *)
Definition base_write (c : charset) (cp : Z) : list N :=
  match c with
  | ASCII => if (cp <? 0)%Z then [] else if (cp <? 128)%Z then [Z.to_N cp] else []
  | UTF8 => cp_to_utf8 cp
  | UTF16 le => cp_to_utf16 le cp
  | UTF32 le => cp_to_utf32 le cp
  end.

(** rotencoder.h:56-63; [cp-'A'+Rot] is uint32_t arithmetic. *)
Definition rot_char (rot : N) (cp : Z) : Z :=
  if (65 <=? cp)%Z && (cp <=? 90)%Z then Z.of_N (65 + ((Z.to_N (cp - 65) + rot) mod two32) mod 26)
  else if (97 <=? cp)%Z && (cp <=? 122)%Z then Z.of_N (97 + ((Z.to_N (cp - 97) + rot) mod two32) mod 26)
  else cp.

(** The single-byte maps of oceencoder.cpp:22-24 and xorencoder.h:50-53. *)
Definition oce_byte (b : N) : N := nth (N.to_nat b) OCE 0.
Definition xor_byte (key b : N) : N := N.lxor b key.

(** write(cp, buf): byteencoder.cpp:37-41, charencoder.cpp:28-30.  The bytes written. *)
Fixpoint enc_write (e : encoder) (cp : Z) : list N :=
  match e with
  | EBase c => base_write c cp
  | EOCE e => map oce_byte (enc_write e cp)
  | EXOR k e => map (xor_byte k) (enc_write e cp)
  | ERot r e => enc_write e (rot_char r cp)
  end.

(** maxByteLength: ascii.h:28, utf8.h:27, utf16.h:28, utf32.h:28, byteencoder.cpp:23-25,
    rotencoder.h:49 *)
Fixpoint maxByteLength (e : encoder) : nat :=
  match e with
  | EBase ASCII => 1%nat
  | EBase _ => 4%nat
  | EOCE e | EXOR _ e | ERot _ e => maxByteLength e
  end.

(** validCodePoints: ascii.h:24, utfbase.h:27, byteencoder.cpp:33-35, rotencoder.h:51-53 *)
Fixpoint validCodePoints (e : encoder) : rset :=
  match e with
  | EBase ASCII => [0; 128]
  | EBase _ => [0; 55296; 57344; 1114112]
  | EOCE e | EXOR _ e | ERot _ e => validCodePoints e
  end.

(** The ranges a RangeSet iterates over, rangeset.h (const_iterator): neighbouring pairs. *)
Fixpoint ranges (v : rset) : list (N * N) :=
  match v with a :: b :: t => (a, b) :: ranges t | _ => [] end.

(** A ByteSet with one member: default construction, then set(b). *)
Definition single (b : N) : res bset := bs_set1 bs_empty b true.

Fixpoint mapM {A B} (f : A -> res B) (l : list A) : res (list B) :=
  match l with [] => Ok [] | a :: t => b <- f a ;; r <- mapM f t ;; Ok (b :: r) end.

(** v.back().set(b) *)
Definition set_last (v : list bset) (b : N) : res (list bset) :=
  match rev v with [] => UB | s :: r => s' <- bs_set1 s b true ;; Ok (rev r ++ [s']) end.

(** The prefix of length clen-1 of the two buffers agree, encoderbase.cpp:57-58. *)
Definition same_prefix (cur prev : list N) : bool :=
  if list_eq_dec N.eq_dec (firstn (length cur - 1) cur) (firstn (length cur - 1) prev) then true else false.

(** encoderbase.cpp:51-71: one code point.  [prev] is the buffer with its length plen. *)
Definition collect_one (wr : Z -> list N) (va : list (list bset)) (prev : list N) (cp : N)
  : res (list (list bset) * list N) :=
  let cur := wr (Z.of_N cp) in
  match cur with
  | [] => Ok (va, prev)
  | _ :: _ =>
      if (length cur =? length prev)%nat && same_prefix cur prev
      then match va with
           | [] => UB
           | v :: r => v' <- set_last v (last cur 0) ;; Ok (v' :: r, prev)
           end
      else v <- mapM single cur ;; Ok (v :: va, cur)
  end.

(** encoderbase.cpp:48-73: the code points of one range, then of all ranges. *)
Fixpoint collect_range (wr : Z -> list N) (n : nat) (va : list (list bset)) (prev : list N) (cp : N)
  : res (list (list bset) * list N) :=
  match n with
  | O => Ok (va, prev)
  | S k => ' (va1, prev1) <- collect_one wr va prev cp ;; collect_range wr k va1 prev1 (cp + 1)
  end.

Fixpoint collect_ranges (wr : Z -> list N) (rs : list (N * N)) (va : list (list bset)) (prev : list N)
  : res (list (list bset)) :=
  match rs with
  | [] => Ok va
  | (l, h) :: t => ' (va1, prev1) <- collect_range wr (N.to_nat (h - l)) va prev l ;; collect_ranges wr t va1 prev1
  end.

(** * UTFBase *)

(** utf8.cpp:102-114 *)
Definition utf8_block (v : list bset) (l h : N) (len : nat) (blimit : N) : res (list bset * N) :=
  if (len =? 1)%nat then
    let m := N.min h blimit in
    s <- get v (len - 1) ;; s' <- bs_set s l m true ;; v' <- set_at v (len - 1) s' ;; Ok (v', m)
  else if (l <? N.min h blimit) && (0 <? l mod 64) then
    let m := N.min (N.min h blimit) ((l / 64 + 1) * 64) in
    s <- get v (len - 1) ;;
    s' <- bs_set s (N.lor (N.land l 63) 128) (N.lor (N.land (m - 1) 63) 128 + 1) true ;;
    v' <- set_at v (len - 1) s' ;; Ok (v', m)
  else Ok (v, l).

(** utf16.h:132-138 and utf32.h:100-106, which differ in the position changed. *)
Definition utfn_block (pos : nat) (v : list bset) (l h : N) (blimit : N) : res (list bset * N) :=
  if (l <? N.min h blimit) && (0 <? l mod 256) then
    let m := N.min (N.min h blimit) ((l / 256 + 1) * 256) in
    s <- get v pos ;;
    s' <- bs_set s (N.land l 255) (N.land (m - 1) 255 + 1) true ;;
    v' <- set_at v pos s' ;; Ok (v', m)
  else Ok (v, l).

Definition writeRangeBlock (c : charset) (v : list bset) (l h : N) (len : nat) (blimit : N) : res (list bset * N) :=
  match c with
  | UTF8 => utf8_block v l h len blimit
  | UTF16 le => utfn_block (len - (if le then 2 else 1)) v l h blimit
  | UTF32 le => utfn_block (if le then 0 else 3) v l h blimit
  | ASCII => UB                                        (* not a UTFBase *)
  end.

(** The state of collecting: encodings so far, ranges from the iterator on, l and h. *)
Record cstate := mkC { c_va : list (list bset); c_rs : list (N * N); c_l : N; c_h : N }.

(** utfbase.cpp:20-52.  An encoding of another length than [len] would leave stale bytes in
    [cur]; this is [UB] here.  [n] bounds the number of loop rounds. *)
Fixpoint writeRange (c : charset) (n : nat) (s : cstate) (len : nat) (blimit : N) : res cstate :=
  match n with
  | O => Fuel
  | S k =>
      if s.(c_l) <? N.min s.(c_h) blimit then
        let cur := base_write c (Z.of_N s.(c_l)) in
        if negb (length cur =? len)%nat then UB else
        v <- mapM single cur ;;
        ' (v', l') <- writeRangeBlock c v (s.(c_l) + 1) s.(c_h) len blimit ;;
        let va := v' :: s.(c_va) in
        if l' <? s.(c_h) then
          if blimit <=? l' then Ok (mkC va s.(c_rs) l' s.(c_h))
          else writeRange c k (mkC va s.(c_rs) l' s.(c_h)) len blimit
        else match s.(c_rs) with
             | [] => Ok (mkC va [] l' s.(c_h))
             | _ :: t =>
                 match t with
                 | [] => Ok (mkC va [] l' s.(c_h))
                 | (l2, h2) :: _ => writeRange c k (mkC va t l2 h2) len blimit
                 end
             end
      else Ok s
  end.

(** utfbase.cpp:60-69: the ranges from the iterator on. *)
Fixpoint skip_loop (rs : list (N * N)) (l h ubound : N) : list (N * N) * N * N :=
  match rs with
  | [] => ([], l, h)
  | (l2, h2) :: t =>
      if ubound <? h2 then (rs, (if l2 <? ubound then ubound else l2), h2) else skip_loop t l2 h2 ubound
  end.

(** utfbase.cpp:54-71 *)
Definition skipRange (s : cstate) (ubound : N) : cstate :=
  if s.(c_l) <? ubound then
    match s.(c_rs) with
    | [] => s
    | _ :: t => let '(rs, l, h) := skip_loop t s.(c_l) s.(c_h) ubound in mkC s.(c_va) rs l h
    end
  else s.

(** Enough rounds for any of the loops: one per code point and one per range. *)
Fixpoint rounds (rs : list (N * N)) : nat :=
  match rs with [] => 1%nat | (l, h) :: t => (N.to_nat (h - l) + rounds t + 1)%nat end.

(** utf8.cpp:73-100, utf16.h:109-130, utf32.h:80-98 *)
Definition utf_collect (c : charset) (uset : rset) : res (list (list bset)) :=
  let rs := ranges uset in
  match rs with
  | [] => Ok []
  | (l, h) :: _ =>
      let n := rounds rs in
      let s := mkC [] rs l h in
      match c with
      | ASCII => UB
      | UTF8 =>
          s <- writeRange c n s 1 128 ;; s <- writeRange c n s 2 2048 ;; s <- writeRange c n s 3 55296 ;;
          s <- writeRange c n (skipRange s 57344) 3 65536 ;; s <- writeRange c n s 4 1114112 ;; Ok s.(c_va)
      | UTF16 _ =>
          s <- writeRange c n s 2 55296 ;; s <- writeRange c n (skipRange s 57344) 2 65536 ;;
          s <- writeRange c n s 4 1114112 ;; Ok s.(c_va)
      | UTF32 _ =>
          s <- writeRange c n s 4 55296 ;; s <- writeRange c n (skipRange s 57344) 4 1114112 ;; Ok s.(c_va)
      end
  end.

(** * Collapsing, encoderbase.cpp:112-158 *)

Definition bset_eqb (s t : bset) : bool := if list_eq_dec N.eq_dec s t then true else false.
Definition bsets_eqb (s t : list bset) : bool := if list_eq_dec (list_eq_dec N.eq_dec) s t then true else false.

(** encoderbase.cpp:102-110; [n] counts from the end. *)
Definition equal_except_at (n : nat) (a b : list bset) : bool :=
  ((length a <=? n + 1)%nat || bsets_eqb (firstn (length a - n - 1) a) (firstn (length a - n - 1) b)) &&
  ((n =? 0)%nat || bsets_eqb (skipn (length a - n) a) (skipn (length b - n) b)).

(** encoderbase.cpp:145-147: collapse into [e] as long as the next one agrees. *)
Fixpoint absorb (n skip : nat) (e : list bset) (l : list (list bset)) : res (list bset * list (list bset)) :=
  match l with
  | [] => Ok (e, [])
  | v :: t =>
      if equal_except_at n e v then
        s1 <- get e skip ;; s2 <- get v skip ;; e' <- set_at e skip (bs_or s1 s2) ;; absorb n skip e' t
      else Ok (e, l)
  end.

(** encoderbase.cpp:142-152: the collapsed encodings of one length. *)
Fixpoint collapse_group (fuel n skip : nat) (l : list (list bset)) : res (list (list bset)) :=
  match l with
  | [] => Ok []
  | e :: t =>
      match fuel with
      | O => Fuel
      | S k => ' (e', r) <- absorb n skip e t ;; out <- collapse_group k n skip r ;; Ok (e' :: out)
      end
  end.

(** encoderbase.cpp:123-130: the encodings up to the next change of length. *)
Fixpoint span_len (len : nat) (l : list (list bset)) : list (list bset) * list (list bset) :=
  match l with
  | [] => ([], [])
  | v :: t => if (length v =? len)%nat then let '(a, b) := span_len len t in (v :: a, b) else ([], l)
  end.

Section Sorting.
(** std::sort with a comparator that compares encodings of length elen ignoring position skip. *)
Variable sort : nat -> nat -> list (list bset) -> list (list bset).
(** std::sort by length, encoderbase.cpp:76-80 *)
Variable sort_len : list (list bset) -> list (list bset).

(** encoderbase.cpp:121-153: one round.  Returns what is appended to [vo] and to [vb]. *)
Fixpoint collapse_round (fuel n : nat) (va : list (list bset)) : res (list (list bset) * list (list bset)) :=
  match va with
  | [] => Ok ([], [])
  | v :: _ =>
      match fuel with
      | O => Fuel
      | S k =>
          let elen := length v in
          if (elen <? n + 1)%nat then UB else                (* skip would wrap *)
          let skip := (elen - n - 1)%nat in
          let '(grp, rest) := span_len elen va in
          let grp' := if (1 <? elen)%nat then sort elen skip grp else grp in
          out <- collapse_group (length grp') n skip grp' ;;
          ' (vo, vb) <- collapse_round k n rest ;;
          Ok (if (n =? elen - 1)%nat then (out ++ vo, vb) else (vo, out ++ vb))
      end
  end.

(** encoderbase.cpp:119-157: rounds n, n+1, ... *)
Fixpoint collapse (k n : nat) (va vo : list (list bset)) : res (list (list bset)) :=
  match k with
  | O => Ok vo
  | S k' => ' (out, vb) <- collapse_round (length va) n va ;; collapse k' (S n) vb (vo ++ out)
  end.

(** ascii.cpp:33-47, on the ranges. *)
Fixpoint ascii_ranges (rs : list (N * N)) (s : bset) : res bset :=
  match rs with
  | [] => Ok s
  | (a, b) :: t =>
      if 127 <? a then Ok s
      else if 127 <? b then bs_set s a 128 true
      else s' <- bs_set s a b true ;; ascii_ranges t s'
  end.

(** write(uset, vo): ASCII overrides it (ascii.cpp:33-47); the UTF encoders use
    EncoderBase::write (encoderbase.cpp:112-158) with their own collectRanges, the transforming
    ones with EncoderBase::collectRanges (encoderbase.cpp:42-81). *)
Definition enc_write_set (e : encoder) (uset : rset) : res (list (list bset)) :=
  match e with
  | EBase ASCII => s <- ascii_ranges (ranges uset) bs_empty ;; Ok [[s]]
  | EBase c => va <- utf_collect c uset ;; collapse (maxByteLength e) 0 (rev va) []
  | _ => va <- collect_ranges (enc_write e) (ranges uset) [] [] ;;
         collapse (maxByteLength e) 0 (sort_len (rev va)) []
  end.

(** * CachingEncoder, caching_encoder.h:24-71: a map from sets of code points. *)
Definition ecache := list (rset * list (list bset)).

Fixpoint cache_find (c : ecache) (u : rset) : option (list (list bset)) :=
  match c with
  | [] => None
  | (u', v) :: t => if list_eq_dec N.eq_dec u u' then Some v else cache_find t u
  end.

(** caching_encoder.h:58-67 with an empty [vo]. *)
Definition cached_write (e : encoder) (c : ecache) (u : rset) : res (list (list bset) * ecache) :=
  match cache_find c u with
  | Some v => Ok (v, c)
  | None => v <- enc_write_set e u ;; Ok (v, (u, v) :: c)
  end.
End Sorting.

(** A ByteSet from a list of ranges, byteset.h:39-43. *)
Fixpoint bs_of_ranges (rs : list (N * N)) (s : bset) : res bset :=
  match rs with [] => Ok s | (a, b) :: t => s' <- bs_set s a b true ;; bs_of_ranges t s' end.
Definition bs_lit (rs : list (N * N)) : res bset := bs_of_ranges rs bs_empty.

(** The cache contents set by the constructors: utf8.h:43-64, utf16.h:144-176, utf32.h:112-144.
    Each row is one encoding, as the ranges of its byte sets. *)
Definition any_rows (c : charset) : list (list (list (N * N))) :=
  let cont := [(128, 192)] in let all := [(0, 256)] in
  match c with
  | ASCII => []
  | UTF8 =>
      [ [[(0, 128)]];
        [[(194, 224)]; cont];
        [[(224, 225)]; [(160, 192)]; cont];
        [[(237, 238)]; [(128, 160)]; cont];
        [[(225, 237); (238, 240)]; cont; cont];
        [[(240, 241)]; [(144, 192)]; cont; cont];
        [[(244, 245)]; [(128, 144)]; cont; cont];
        [[(241, 244)]; cont; cont; cont] ]
  | UTF16 true => [ [all; [(0, 216); (224, 256)]]; [all; [(216, 220)]; all; [(220, 224)]] ]
  | UTF16 false => [ [[(0, 216); (224, 256)]; all]; [[(216, 220)]; all; [(220, 224)]; all] ]
  | UTF32 true => [ [all; [(216, 224)]; [(1, 17)]; [(0, 1)]]; [all; [(0, 216); (224, 256)]; [(0, 17)]; [(0, 1)]] ]
  | UTF32 false => [ [[(0, 1)]; [(0, 1)]; [(0, 216); (224, 256)]; all]; [[(0, 1)]; [(1, 17)]; all; all] ]
  end.

Definition any_set : rset := [0; 55296; 57344; 1114112].

Definition initial_cache (c : charset) : res ecache :=
  match c with
  | ASCII => Ok []                                     (* ASCII is not wrapped in a cache *)
  | _ => v <- mapM (mapM bs_lit) (any_rows c) ;; Ok [(any_set, v)]
  end.
