(** Unicode encodings: include/decoders/utf8.h, utf16.h, utf32.h.  The same encoding functions
    are repeated in src/lib/utf8.cpp:21-67 and include/encoders/utf16.h:32-68, utf32.h:32-59.

    Encoding returns the bytes written; the empty list stands for the return value 0.
    Decoding takes the bytes from the pointer to [end] and returns the number of bytes consumed
    and the code point; [None] stands for the return value 0.  A non-negative int32_t is kept
    as an [N]. *)
From Verif Require Import Base.
Open Scope N_scope.

(** decoders/utf8.h:20-28 (CONTINUATION): the rest of the input and the new cp. *)
Definition continuation (l : list N) (cp : N) : option (list N * N) :=
  match l with
  | [] => None
  | x :: r =>
      let b := N.land x 255 in
      if (b <? 128) || (191 <? b) then None else Some (r, N.lor (N.shiftl cp 6) (N.land b 63))
  end.

(** decoders/utf8.h:31-89 *)
Definition utf8_to_cp (l : list N) : option (nat * N) :=
  match l with
  | [] => None
  | x :: r =>
      let cp := N.land x 255 in
      if cp <? 128 then Some (1%nat, cp)
      else if cp <? 224 then
        if cp <? 194 then None else
        match continuation r (N.land cp 31) with
        | None => None
        | Some (_, cp1) => Some (2%nat, cp1)
        end
      else if cp <? 240 then
        match continuation r (N.land cp 15) with
        | None => None
        | Some (r1, cp1) =>
            match continuation r1 cp1 with
            | None => None
            | Some (_, cp2) => if (cp2 <? 2048) || ((55295 <? cp2) && (cp2 <? 57344)) then None else Some (3%nat, cp2)
            end
        end
      else if cp <? 245 then
        match continuation r (N.land cp 7) with
        | None => None
        | Some (r1, cp1) =>
            match continuation r1 cp1 with
            | None => None
            | Some (r2, cp2) =>
                match continuation r2 cp2 with
                | None => None
                | Some (_, cp3) => if (cp3 <? 65536) || (1114111 <? cp3) then None else Some (4%nat, cp3)
                end
            end
        end
      else None
  end.

(** decoders/utf8.h:93-140; byte stores truncate to 8 bits. *)
Definition utf8_bytes (cp : N) : list N :=
  if cp <? 128 then [cp mod 256]
  else if cp <? 2048 then
    [N.lor 192 (N.land (N.shiftr cp 6) 31); N.lor 128 (N.land cp 63)]
  else if cp <? 55296 then
    [N.lor 224 (N.land (N.shiftr cp 12) 15); N.lor 128 (N.land (N.shiftr cp 6) 63); N.lor 128 (N.land cp 63)]
  else if cp <? 57344 then []
  else if cp <? 65536 then
    [N.lor 224 (N.land (N.shiftr cp 12) 15); N.lor 128 (N.land (N.shiftr cp 6) 63); N.lor 128 (N.land cp 63)]
  else if cp <? 1114112 then
    [N.lor 240 (N.land (N.shiftr cp 18) 7); N.lor 128 (N.land (N.shiftr cp 12) 63);
     N.lor 128 (N.land (N.shiftr cp 6) 63); N.lor 128 (N.land cp 63)]
  else [].

Definition cp_to_utf8 (cp : Z) : list N := if (cp <? 0)%Z then [] else utf8_bytes (Z.to_N cp).

(** A 16-bit unit from its two bytes, decoders/utf16.h:27, 42. *)
Definition unit16 (le : bool) (x y : N) : N := if le then N.lor x (N.shiftl y 8) else N.lor y (N.shiftl x 8).

(** decoders/utf16.h:20-65 *)
Definition utf16_to_cp (le : bool) (l : list N) : option (nat * N) :=
  match l with
  | x0 :: x1 :: r =>
      let cp := unit16 le x0 x1 in
      if cp <? 55296 then Some (2%nat, cp)
      else if cp <? 56320 then
        let lead := cp mod two16 in
        match r with
        | x2 :: x3 :: _ =>
            let trail := (unit16 le x2 x3) mod two16 in
            if trail <? 56320 then None
            else if trail <? 57344 then
              Some (4%nat, N.lor (N.shiftl (lead - (55296 - N.shiftr 65536 10)) 10) (trail - 56320))
            else None
        | _ => None
        end
      else if cp <? 57344 then None
      else Some (2%nat, cp)
  | _ => None
  end.

(** The two bytes of a 16-bit unit, decoders/utf16.h:75-76, 86-87, 94-97. *)
Definition bytes16 (le : bool) (u : N) : list N :=
  if le then [N.land u 255; N.shiftr u 8 mod 256] else [N.shiftr u 8 mod 256; N.land u 255].

(** decoders/utf16.h:67-104 *)
Definition utf16_bytes (le : bool) (cp : N) : list N :=
  if cp <? 55296 then bytes16 le cp
  else if cp <? 57344 then []
  else if cp <? 65536 then bytes16 le cp
  else if cp <? 1114112 then
    let lead := (55296 - N.shiftr 65536 10 + N.shiftr cp 10) mod two16 in
    let trail := (56320 + N.land cp 1023) mod two16 in
    bytes16 le lead ++ bytes16 le trail
  else [].

Definition cp_to_utf16 (le : bool) (cp : Z) : list N := if (cp <? 0)%Z then [] else utf16_bytes le (Z.to_N cp).

(** decoders/utf32.h:20-40; a value of 2^31 or more is a negative int32_t. *)
Definition utf32_to_cp (le : bool) (l : list N) : option (nat * N) :=
  match l with
  | x0 :: x1 :: x2 :: x3 :: _ =>
      let cp := if le
        then N.lor (N.lor (N.lor x0 (N.shiftl x1 8)) (N.shiftl x2 16)) (N.shiftl x3 24)
        else N.lor (N.lor (N.lor x3 (N.shiftl x2 8)) (N.shiftl x1 16)) (N.shiftl x0 24) in
      if (2147483648 <=? cp) || ((55296 <=? cp) && (cp <? 57344)) || (1114112 <=? cp) then None
      else Some (4%nat, cp)
  | _ => None
  end.

(** decoders/utf32.h:42-70 *)
Definition bytes32 (le : bool) (cp : N) : list N :=
  let l := [N.land cp 255; N.land (N.shiftr cp 8) 255; N.land (N.shiftr cp 16) 255; N.land (N.shiftr cp 24) 255] in
  if le then l else rev l.

Definition utf32_bytes (le : bool) (cp : N) : list N :=
  if cp <? 55296 then bytes32 le cp
  else if cp <? 57344 then []
  else if cp <? 1114112 then bytes32 le cp
  else [].

Definition cp_to_utf32 (le : bool) (cp : Z) : list N := if (cp <? 0)%Z then [] else utf32_bytes le (Z.to_N cp).
