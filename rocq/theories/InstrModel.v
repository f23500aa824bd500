(** Building instructions, src/lib/instructions.cpp:101-220.  An instruction is the 32-bit
    little-endian word of its four packed bytes (include/instructions.h:47-115): byte 0 is
    OpCode, bytes 1-3 the operand.  [makeJump] and [makeFork] also store the target in the
    following word; here they return both words. *)
From Verif Require Import Base.
Open Scope N_scope.

(** instructions.h:58-74: OpCode, then T1/T2 as Flags, First, Last. *)
Definition pack (op flags first last : N) : N := op + 256 * flags + 65536 * first + 16777216 * last.
Definition flag_of (negate : bool) : N := if negate then 1 else 0.   (* NEGATE = 1 << 0 *)

(** instructions.cpp:101-107.  Last is left at the constructor's 0 (instructions.h:74). *)
Definition makeByte (b : N) (negate : bool) : N := pack 1 (flag_of negate) b 0.
(** instructions.cpp:109-116 *)
Definition makeEither (one two : N) (negate : bool) : N := pack 3 (flag_of negate) one two.
(** instructions.cpp:118-128 *)
Definition makeRange (first last : N) (negate : bool) : res N :=
  if last <? first then Throw else Ok (pack 4 (flag_of negate) first last).
(** instructions.cpp:130-135 *)
Definition makeAny : N := 5.
(** instructions.cpp:137-141 *)
Definition makeBitVector : N := 2.
(** instructions.cpp:143-151 *)
Definition makeJump (target : N) : list N := [8; target mod two32].
(** instructions.cpp:153-157 *)
Definition makeJumpTableRange (first last : N) : res N :=
  w <- makeRange first last false ;; Ok (w - 4 + 0).
(** instructions.cpp:159-170; the opcode is HALT_OP from the constructor. *)
Definition makeRaw24 (v : N) : res N := if two24 <=? v then Throw else Ok (12 + 256 * v).
Definition with_opcode (w op : N) : N := w - w mod 256 + op.
(** instructions.cpp:172-176 *)
Definition makeLabel (l : N) : res N := w <- makeRaw24 l ;; Ok (with_opcode w 10).
(** instructions.cpp:178-182 *)
Definition makeMatch : N := 11.
(** instructions.cpp:184-188 *)
Definition makeFork (target : N) : list N := [7; target mod two32].
(** instructions.cpp:190-194 *)
Definition makeCheckHalt (c : N) : res N := w <- makeRaw24 c ;; Ok (with_opcode w 9).
(** instructions.cpp:202-207 *)
Definition makeHalt : N := 12.
(** instructions.cpp:209-214 *)
Definition makeFinish : N := 6.
(** instructions.cpp:216-220 *)
Definition makeRaw32 (v : N) : N := v mod two32.
(** instructions.cpp:196-200 *)
Definition makeAdjustStart (o : N) : res N := w <- makeRaw24 o ;; Ok (with_opcode w 13).
(** instructions.h:76-86 (wordSize) *)
Definition wordSize (w : N) : nat :=
  if w mod 256 =? 2 then 9%nat else if (w mod 256 =? 7) || (w mod 256 =? 8) then 2%nat else 1%nat.
