(** C36: building an instruction and decoding it again. *)
From Verif Require Import Base InstrModel VmModel CodegenSpec CodegenLayout CodegenCode CodegenAnn.
Open Scope N_scope.

(** What one asks for when building an instruction. *)
Inductive asm :=
| AByte (b : N) (neg : bool)
| AEither (a b : N) (neg : bool)
| ARange (f l : N) (neg : bool)
| AAny
| AJumpTable (f l : N)
| ABitVector
| AFinish
| AFork (target : N)
| AJump (target : N)
| ACheckHalt (c : N)
| ALabel (l : N)
| AMatch
| AHalt.

(** The words the constructors write. *)
Definition build (i : asm) : res (list N) :=
  match i with
  | AByte b n => Ok [makeByte b n]
  | AEither a b n => Ok [makeEither a b n]
  | ARange f l n => w <- makeRange f l n ;; Ok [w]
  | AAny => Ok [makeAny]
  | AJumpTable f l => w <- makeJumpTableRange f l ;; Ok [w]
  | ABitVector => Ok [makeBitVector]
  | AFinish => Ok [makeFinish]
  | AFork t => Ok (makeFork t)
  | AJump t => Ok (makeJump t)
  | ACheckHalt c => w <- makeCheckHalt c ;; Ok [w]
  | ALabel l => w <- makeLabel l ;; Ok [w]
  | AMatch => Ok [makeMatch]
  | AHalt => Ok [makeHalt]
  end.

(** How the virtual machine reads them: opcode and operand fields of the word at the program
    counter, and the target of a fork or jump in the next word. *)
Definition read (w next : N) : option asm :=
  match w_op w with
  | OpByte => Some (AByte (w_first w) (w_negate w))
  | OpEither => Some (AEither (w_first w) (w_last w) (w_negate w))
  | OpRange => Some (ARange (w_first w) (w_last w) (w_negate w))
  | OpAny => Some AAny
  | OpJumpTable => Some (AJumpTable (w_first w) (w_last w))
  | OpBitVector => Some ABitVector
  | OpFinish => Some AFinish
  | OpFork => Some (AFork next)
  | OpJump => Some (AJump next)
  | OpCheckHalt => Some (ACheckHalt (w_off w))
  | OpLabel => Some (ALabel (w_off w))
  | OpMatch => Some AMatch
  | OpHalt => Some AHalt
  | OpOther => None
  end.

(** The C++ parameter types: byte and uint32_t. *)
Definition typed (i : asm) : Prop :=
  match i with
  | AByte b _ => b < 256
  | AEither a b _ | ARange a b _ | AJumpTable a b => a < 256 /\ b < 256
  | AFork t | AJump t | ACheckHalt t | ALabel t => t < 4294967296
  | _ => True
  end.

(** The operands the constructors accept. *)
Definition in_range (i : asm) : Prop :=
  match i with
  | ARange f l _ | AJumpTable f l => f <= l
  | ACheckHalt c | ALabel c => c < 16777216
  | _ => True
  end.

(** The instruction words between the first word and the next instruction: wordSize(), minus
    the bit set that follows a BitVector instruction. *)
Definition own_words (i : asm) (n : nat) : Prop :=
  match i with ABitVector => n = 9%nat | AFork _ | AJump _ => n = 2%nat | _ => n = 1%nat end.

Lemma w_off_raw o v : o < 256 -> v < two24 -> w_op (o + 256 * v) = decode_opc o /\ w_off (o + 256 * v) = v.
Proof.
  unfold two24, w_op, w_off. intros. split.
  - f_equal. lia.
  - lia.
Qed.

Lemma with_opcode_raw o v : with_opcode (12 + 256 * v) o = o + 256 * v.
Proof. unfold with_opcode. replace ((12 + 256 * v) mod 256) with 12 by lia. lia. Qed.

(** Every instruction with operands in range is built, is a sequence of 32-bit words, and is
    read back by the virtual machine as the same operation with the same operands; its size
    is the one wordSize() tells. *)
Theorem instruction_faithful i : typed i -> in_range i ->
  exists w r, build i = Ok (w :: r) /\ Forall (fun x => x < 4294967296) (w :: r) /\
    (forall next, read w (nth 0 r next) = Some i) /\ own_words i (wordSize w) /\
    (i = ABitVector \/ wordSize w = length (w :: r)).
Proof.
  intros Ht Hr.
  assert (Hw : forall op fl a b, op < 256 -> fl < 256 -> a < 256 -> b < 256 ->
     pack op fl a b < 4294967296 /\ w_op (pack op fl a b) = decode_opc op /\ w_flags (pack op fl a b) = fl /\
     w_first (pack op fl a b) = a /\ w_last (pack op fl a b) = b /\ pack op fl a b mod 256 = op).
  { intros. rewrite w_op_pack, w_flags_pack, w_first_pack, w_last_pack by auto. unfold pack. repeat split; lia. }
  assert (Hn : forall n, N.odd (flag_of n) = n /\ flag_of n < 256) by (intros []; split; reflexivity).
  assert (Hz : forall w o, w mod 256 = o -> o <> 2 -> o <> 7 -> o <> 8 -> wordSize w = 1%nat).
  { intros w o H H2 H7 H8. unfold wordSize. rewrite H. destruct (N.eqb_spec o 2), (N.eqb_spec o 7), (N.eqb_spec o 8); auto; lia. }
  destruct i as [b n|a b n|f l n| |f l| | |t|t|c|c| |]; cbn [typed in_range build own_words] in *.
  - destruct (Hw 1 (flag_of n) b 0) as (H1 & H2 & H3 & H4 & H5 & H6); try lia; [apply Hn|].
    exists (makeByte b n), []. unfold makeByte. split; auto. split; [auto|]. rewrite (Hz _ _ H6) by lia.
    split; [|auto]. intros next. unfold read, w_negate. rewrite H2, H3, H4. cbn. rewrite (proj1 (Hn n)). auto.
  - destruct Ht. destruct (Hw 3 (flag_of n) a b) as (H1 & H2 & H3 & H4 & H5 & H6); try lia; [apply Hn|].
    exists (makeEither a b n), []. unfold makeEither. split; auto. split; [auto|]. rewrite (Hz _ _ H6) by lia.
    split; [|auto]. intros next. unfold read, w_negate. rewrite H2, H3, H4, H5. cbn. rewrite (proj1 (Hn n)). auto.
  - destruct Ht. destruct (Hw 4 (flag_of n) f l) as (H1 & H2 & H3 & H4 & H5 & H6); try lia; [apply Hn|].
    unfold makeRange. destruct (N.ltb_spec l f); [lia|]. cbn [bind].
    eexists _, []. split; [reflexivity|]. split; [auto|]. rewrite (Hz _ _ H6) by lia.
    split; [|auto]. intros next. unfold read, w_negate. rewrite H2, H3, H4, H5. cbn. rewrite (proj1 (Hn n)). auto.
  - exists makeAny, []. split; auto. split; [repeat constructor|]. repeat split; auto.
  - destruct Ht. destruct (Hw 0 0 f l) as (H1 & H2 & H3 & H4 & H5 & H6); try lia.
    unfold makeJumpTableRange, makeRange. destruct (N.ltb_spec l f); [lia|]. cbn [bind].
    replace (pack 4 (flag_of false) f l - 4 + 0) with (pack 0 0 f l) by (unfold pack; cbn; lia).
    eexists _, []. split; [reflexivity|]. split; [auto|]. rewrite (Hz _ _ H6) by lia.
    split; [|auto]. intros next. unfold read. rewrite H2, H4, H5. cbn. auto.
  - exists makeBitVector, []. split; auto. split; [repeat constructor|]. split; [auto|]. split; auto.
  - exists makeFinish, []. split; auto. split; [repeat constructor|]. repeat split; auto.
  - exists 7, [t mod two32]. unfold makeFork, makeJump, two32. rewrite N.mod_small by auto. split; auto. split; [repeat constructor; auto|]. repeat split; auto.
  - exists 8, [t mod two32]. unfold makeFork, makeJump, two32. rewrite N.mod_small by auto. split; auto. split; [repeat constructor; auto|]. repeat split; auto.
  - unfold makeCheckHalt, makeRaw24, two24. destruct (N.leb_spec 16777216 c); [lia|]. cbn [bind]. rewrite with_opcode_raw.
    destruct (w_off_raw 9 c) as [H1 H2]; try (unfold two24; lia).
    assert (H3 : (9 + 256 * c) mod 256 = 9) by lia.
    eexists _, []. split; [reflexivity|]. split; [constructor; [lia|auto]|]. rewrite (Hz _ _ H3) by lia.
    split; [|auto]. intros next. unfold read. rewrite H1, H2. auto.
  - unfold makeLabel, makeRaw24, two24. destruct (N.leb_spec 16777216 c); [lia|]. cbn [bind]. rewrite with_opcode_raw.
    destruct (w_off_raw 10 c) as [H1 H2]; try (unfold two24; lia).
    assert (H3 : (10 + 256 * c) mod 256 = 10) by lia.
    eexists _, []. split; [reflexivity|]. split; [constructor; [lia|auto]|]. rewrite (Hz _ _ H3) by lia.
    split; [|auto]. intros next. unfold read. rewrite H1, H2. auto.
  - exists makeMatch, []. split; auto. split; [repeat constructor|]. repeat split; auto.
  - exists makeHalt, []. split; auto. split; [repeat constructor|]. repeat split; auto.
Qed.
Print Assumptions instruction_faithful.

(** Operands that do not fit are rejected with an exception. *)
Theorem instruction_rejected i : typed i -> ~ in_range i -> build i = Throw.
Proof.
  intros Ht Hr. destruct i; cbn [typed in_range build] in *; try tauto.
  - unfold makeRange. destruct (N.ltb_spec l f); [reflexivity|lia].
  - unfold makeJumpTableRange, makeRange. destruct (N.ltb_spec l f); [reflexivity|lia].
  - unfold makeCheckHalt, makeRaw24, two24. destruct (N.leb_spec 16777216 c); [reflexivity|lia].
  - unfold makeLabel, makeRaw24, two24. destruct (N.leb_spec 16777216 l); [reflexivity|lia].
Qed.
Print Assumptions instruction_rejected.

(** The largest label, and the first that does not fit. *)
Example label_limits : typed (ALabel 16777215) /\ in_range (ALabel 16777215) /\
  build (ALabel 16777215) = Ok [4294967050] /\ read 4294967050 0 = Some (ALabel 16777215) /\
  typed (ALabel 16777216) /\ ~ in_range (ALabel 16777216).
Proof. repeat split; try reflexivity. cbn. lia. Qed.
