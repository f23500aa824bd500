(** Decoders: turning bytes back into code points, and the windows of text around a hit.
    include/decoders/*.h, src/lib/decoders/*.cpp and src/lib/lightgrep_c_util.cpp:103-330.

    Simplifications:
    - a buffer is a list of bytes, a pointer into it an index; reading outside it is [UB];
    - ICUDecoder, and so every encoding except ASCII, UTF-8, UTF-16 and UTF-32, is left out;
    - products of a context size and maxByteLength() are not reduced modulo 2^64, and pointers
      just outside the buffer that are computed but not read are not held against the code. *)
From Verif Require Import Base UtfModel EncModel.
Open Scope N_scope.

(** ocedecoder.cpp:20-53 *)
Definition unOCE : list N := [
  71; 241; 180; 230; 11; 106; 114; 72; 133; 78; 158; 235; 226; 248; 148; 83;
  224; 187; 160; 2; 232; 90; 9; 171; 219; 227; 186; 198; 124; 195; 16; 221;
  57; 5; 150; 48; 245; 55; 96; 130; 140; 201; 19; 74; 107; 29; 243; 251;
  143; 38; 151; 202; 145; 23; 1; 196; 50; 45; 110; 49; 149; 255; 217; 35;
  209; 0; 94; 121; 220; 68; 59; 26; 40; 197; 97; 87; 32; 144; 61; 131;
  185; 67; 190; 103; 210; 70; 66; 118; 192; 109; 91; 126; 178; 15; 22; 41;
  60; 169; 3; 84; 13; 218; 93; 223; 246; 183; 199; 98; 205; 141; 6; 211;
  105; 92; 134; 214; 20; 247; 165; 102; 117; 172; 177; 233; 69; 33; 112; 12;
  135; 159; 116; 164; 34; 76; 111; 191; 31; 86; 170; 46; 179; 120; 51; 80;
  176; 163; 146; 188; 207; 25; 28; 167; 99; 203; 30; 77; 62; 75; 27; 155;
  79; 231; 240; 238; 173; 58; 181; 89; 4; 234; 64; 85; 37; 81; 229; 122;
  137; 56; 104; 82; 123; 252; 39; 174; 215; 189; 250; 7; 244; 204; 142; 95;
  239; 53; 156; 132; 43; 21; 213; 119; 52; 73; 182; 18; 10; 127; 113; 136;
  253; 157; 24; 65; 125; 147; 216; 88; 44; 206; 254; 36; 175; 222; 184; 54;
  200; 161; 128; 166; 153; 152; 168; 47; 14; 129; 101; 115; 228; 194; 162; 138;
  212; 225; 17; 208; 8; 139; 42; 242; 237; 154; 100; 63; 193; 108; 249; 236].

(** util.h:54, decoder.cpp:21 *)
Definition END : Z := (-1114113)%Z.

(** A value with the position it was read at: pair<int32_t, const byte*>. *)
Notation dval := (Z * nat)%type.

(** The decorators: bytesource.h, ocedecoder.h, xordecoder.h, rotdecoder.h, asciidecoder.h and
    utf8decoder.h, utf16decoder.h, utf32decoder.h. *)
Inductive chain :=
| CSource
| COce (c : chain)
| CXor (key : N) (c : chain)
| CRot (rot : N) (c : chain)
| CText (cs : charset) (c : chain).

(** Their mutable parts: Cur and End of the source, In of each UTFDecoderBase. *)
Inductive dstate :=
| SSrc (cur end_ : nat)
| SQueue (q : list dval) (s : dstate).

(** reset(beg, end): bytesource.h:51-54, utfdecoderbase.h:96-99, the others forward it. *)
Fixpoint dreset (c : chain) (beg end_ : nat) : dstate :=
  match c with
  | CSource => SSrc beg end_
  | COce c | CXor _ c | CRot _ c | CText ASCII c => dreset c beg end_
  | CText _ c => SQueue [] (dreset c beg end_)
  end.

(** maxByteLength: bytesource.h:56-58, utfdecoderbase.h:101-104, the others forward it. *)
Fixpoint dmax (c : chain) : nat :=
  match c with
  | CSource => 1%nat
  | COce c | CXor _ c | CRot _ c | CText ASCII c => dmax c
  | CText _ c => (4 * dmax c)%nat
  end.

(** -n-1 *)
Definition badv (n : Z) : Z := (- n - 1)%Z.

(** ocedecoder.h:58-71 *)
Definition oce_val (n : Z) : res Z :=
  if (n <? 0)%Z then Ok n
  else if (n <? 256)%Z then b <- get unOCE (Z.to_nat n) ;; Ok (Z.of_N b)
  else Ok (badv n).

(** xordecoder.h:66-79 *)
Definition xor_val (key : N) (n : Z) : Z :=
  if (n <? 0)%Z then n else if (n <? 256)%Z then Z.of_N (N.lxor (Z.to_N n) key) else badv n.

(** rotdecoder.h:62-71; [cp-'A'+26-Rot] is uint32_t arithmetic. *)
Definition unrot (base rot : N) (cp : Z) : Z :=
  Z.of_N (base + ((Z.to_N cp - base + 26 + (two32 - rot mod two32)) mod two32) mod 26).
Definition rot_val (rot : N) (cp : Z) : Z :=
  if (65 <=? cp)%Z && (cp <=? 90)%Z then unrot 65 rot cp
  else if (97 <=? cp)%Z && (cp <=? 122)%Z then unrot 97 rot cp
  else cp.

(** asciidecoder.h:55-61 *)
Definition ascii_val (n : Z) : Z := if (128 <=? n)%Z then badv n else n.

(** decode(): utf8decoder.h:55-57, utf16decoder.h:56-58, utf32decoder.h:56-58; None is 0. *)
Definition utf_decode (cs : charset) (l : list N) : option (nat * N) :=
  match cs with
  | ASCII => None
  | UTF8 => utf8_to_cp l
  | UTF16 le => utf16_to_cp le l
  | UTF32 le => utf32_to_cp le l
  end.

(** utfdecoderbase.h:56-63: the bytes at the front of the queue. *)
Fixpoint front_bytes (q : list dval) : list N :=
  match q with
  | (v, _) :: t => if (v <? 0)%Z || (255 <? v)%Z then [] else Z.to_N v :: front_bytes t
  | [] => []
  end.

(** utfdecoderbase.h:65-93: take one value from a full queue. *)
Definition take_value (cs : charset) (q : list dval) : res (dval * list dval) :=
  match q with
  | [] => UB
  | (v, o) :: t =>
      match front_bytes q with
      | [] => Ok ((v, o), t)
      | _ :: _ =>
          match utf_decode cs (front_bytes q) with
          | None => Ok ((badv v, o), t)
          | Some (consumed, cp) => if (length q <? consumed)%nat then UB else Ok ((Z.of_N cp, o), skipn consumed q)
          end
      end
  end.

(** utfdecoderbase.h:51-53: the loop filling the queue, [n] rounds at most. *)
Fixpoint fill_queue (nx : dstate -> res (dval * dstate)) (n : nat) (q : list dval) (s : dstate)
  : res (list dval * dstate) :=
  if (length q <? 4)%nat then
    match n with
    | O => Fuel
    | S k => ' (v, s') <- nx s ;; fill_queue nx k (q ++ [v]) s'
    end
  else Ok (q, s).

(** next() *)
Fixpoint dnext (buf : list N) (c : chain) (s : dstate) : res (dval * dstate) :=
  match c with
  | CSource =>                                                 (* bytesource.h:41-49 *)
      match s with
      | SSrc cur end_ => if (cur =? end_)%nat then Ok ((END, end_), s)
                         else b <- get buf cur ;; Ok ((Z.of_N b, cur), SSrc (S cur) end_)
      | _ => UB
      end
  | COce c => ' ((v, o), s') <- dnext buf c s ;; v' <- oce_val v ;; Ok ((v', o), s')
  | CXor k c => ' ((v, o), s') <- dnext buf c s ;; Ok ((xor_val k v, o), s')
  | CRot r c => ' ((v, o), s') <- dnext buf c s ;; Ok ((rot_val r v, o), s')
  | CText ASCII c => ' ((v, o), s') <- dnext buf c s ;; Ok ((ascii_val v, o), s')
  | CText cs c =>
      match s with
      | SQueue q s0 =>
          ' (q', s1) <- fill_queue (dnext buf c) 4 q s0 ;;
          ' (v, q2) <- take_value cs q' ;;
          Ok (v, SQueue q2 s1)
      | _ => UB
      end
  end.

(** lightgrep_c_util.cpp:136-141: read values until END. *)
Fixpoint drain (buf : list N) (c : chain) (n : nat) (s : dstate) : res (list dval) :=
  ' (v, s') <- dnext buf c s ;;
  if (fst v =? END)%Z then Ok []
  else match n with O => Fuel | S k => r <- drain buf c k s' ;; Ok (v :: r) end.

(** * Windows around a hit, lightgrep_c_util.cpp:103-213 *)

Definition count_bad (l : list dval) : N := N.of_nat (length (filter (fun v => fst v <? 0)%Z l)).

(** 143-147: the bytes before position [n] as bad values, until there are [leading] values. *)
Fixpoint pad_left (buf : list N) (n : nat) (lctx : list dval) (leading : nat) : res (list dval) :=
  if (length lctx <? leading)%nat then
    match n with
    | O => Ok lctx
    | S k => b <- get buf k ;; pad_left buf k ((badv (Z.of_N b), k) :: lctx) leading
    end
  else Ok lctx.

(** 150-155: how many values at the end are not bad. *)
Fixpoint good_run (l : list dval) : nat :=
  match l with (v, _) :: t => if (v <? 0)%Z then O else S (good_run t) | [] => O end.
Definition adj_good (l : list dval) : nat := good_run (rev l).

Definition uint_max : N := two32 - 1.

(** 160: the order of leading contexts. *)
Definition not_worse (a : nat) (i : N) (ma : nat) (mi : N) : bool := (ma <? a)%nat || ((ma =? a)%nat && (mi <=? i)).

(** 164-167 *)
Definition last_n {A} (n : nat) (l : list A) : list A := skipn (length l - n) l.

(** 130-169: leading contexts of lengths [k], [k]+1, ..., [rounds] of them. *)
Fixpoint lead_loop (buf : list N) (c : chain) (hbeg leading : nat) (rounds k : nat)
  (ma : nat) (mi : N) (cps : list dval) : res (N * list dval) :=
  match rounds with
  | O => Ok (mi, cps)
  | S r =>
      let l := (hbeg - k)%nat in
      lctx0 <- drain buf c (hbeg - l) (dreset c l hbeg) ;;
      lctx <- pad_left buf l lctx0 leading ;;
      let bad := count_bad lctx in
      let a := adj_good lctx in
      let i := (uint_max + two32 - bad mod two32) mod two32 in
      if not_worse a i ma mi then lead_loop buf c hbeg leading r (S k) a i (last_n leading lctx)
      else lead_loop buf c hbeg leading r (S k) ma mi cps
  end.

(** 178-185: the values of the hit; also the first one after it and the decoder's state. *)
Fixpoint hit_loop (buf : list N) (c : chain) (hend n : nat) (s : dstate) : res (list dval * dval * dstate) :=
  ' (v, s') <- dnext buf c s ;;
  if (snd v <? hend)%nat then
    match n with
    | O => Fuel
    | S k => ' (l, v2, s2) <- hit_loop buf c hend k s' ;; Ok (v :: l, v2, s2)
    end
  else Ok ([], v, s').

(** 192-204: the trailing context, and the value that follows it.  [trailing] is decremented
    after each value, modulo 2^64; [n] bounds the rounds. *)
Fixpoint trail_loop (buf : list N) (c : chain) (n : nat) (trailing : N) (v : dval) (s : dstate)
  : res (list dval * dval) :=
  if (fst v =? END)%Z then Ok ([], v)
  else match n with
       | O => Fuel
       | S k =>
           ' (v', s') <- dnext buf c s ;;
           let t := (trailing + (two64 - 1)) mod two64 in
           if 0 <? t then ' (l, v2) <- trail_loop buf c k t v' s' ;; Ok (v :: l, v2)
           else Ok ([v], v')
       end.

Record window := mkW { w_cps : list dval; w_beg : nat; w_end : nat; w_bad : N }.

(** decode(): 104-213. *)
Definition decode (buf : list N) (c : chain) (hbeg hend leading trailing : nat) : res window :=
  ' (mi, lead) <- lead_loop buf c hbeg leading (Nat.min hbeg (leading * dmax c)) 1 0 0 [] ;;
  let bad0 := (uint_max + two32 - mi) mod two32 in
  let stop := Nat.min (hend + trailing * dmax c) (length buf) in
  ' (hit, v, s) <- hit_loop buf c hend (stop - hbeg) (dreset c hbeg stop) ;;
  ' (trail, v2) <- trail_loop buf c (stop - hbeg) (N.of_nat trailing) v s ;;
  Ok (mkW (lead ++ hit ++ trail ++ [(END, snd v2)]) (length lead) (length lead + length hit)
          ((bad0 + count_bad hit + count_bad trail) mod two32)).

(** * lg_hit_context, 263-329 *)

(** 263-268; the value is passed on as int32_t. *)
Definition to_utf8 (repl : Z) (l : list dval) : list N :=
  flat_map (fun v => cp_to_utf8 (if (fst v <=? 0)%Z then repl else fst v)) l.

Record hitctx := mkH { h_utf8 : list N; h_outer : nat * nat; h_hit : nat * nat; h_bad : N }.

Definition hit_context (buf : list N) (c : chain) (hbeg hend size : nat) (repl : Z) : res hitctx :=
  w <- decode buf c hbeg hend size size ;;
  let cps := w.(w_cps) in
  ' (_, first) <- get cps 0 ;;
  ' (_, last) <- get cps (length cps - 1) ;;
  let a := to_utf8 repl (firstn w.(w_beg) cps) in
  let b := to_utf8 repl (firstn (w.(w_end) - w.(w_beg)) (skipn w.(w_beg) cps)) in
  let z := to_utf8 repl (firstn (length cps - 1 - w.(w_end)) (skipn w.(w_end) cps)) in
  Ok (mkH (a ++ b ++ z ++ [0]) (first, last) (length a, length (a ++ b)) w.(w_bad)).
