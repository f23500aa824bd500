(** Writing a parse tree as a pattern: /repo/src/lib/unparser.cpp, and [repetition] of
    /repo/src/lib/parsenode.cpp:20-50.

    The output stream becomes the list of the characters written.  A ByteSet is a function from Z; only
    0..255 are looked at. *)
From Coq Require Import Ascii String.
From Verif Require Import Base RangeSetModel ByteSetModel PatModel ParseModel.
Import ListNotations.
Open Scope list_scope.
Open Scope Z_scope.

Definition str (s : string) : list Z := map (fun a => Z.of_nat (nat_of_ascii a)) (list_ascii_of_string s).

(** A number as operator<< writes it, in base [b] with capital letters; a uint32_t has at most ten
    digits in either base used. *)
Definition digit_sign (d : Z) : Z := if d <? 10 then 48 + d else 55 + d.
Fixpoint number_text (fuel : nat) (b v : Z) : list Z :=
  match fuel with
  | O => []
  | S f => if v <? b then [digit_sign v] else number_text f b (v / b) ++ [digit_sign (v mod b)]
  end.
Definition decimal (v : Z) : list Z := number_text 10 10 v.
(** unparser.cpp:76-79: setfill('0') and setw(2) *)
Definition hexadecimal (v : Z) : list Z := let s := number_text 10 16 v in if (length s <? 2)%nat then 48 :: s else s.

(** unparser.cpp:56-83 *)
Definition byteToLiteralString (i : Z) : list Z :=
  if i =? 92 then str "\\"
  else if (32 <=? i) && (i <=? 126) then [i]
  else if i =? 7 then str "\a"
  else if i =? 9 then str "\t"
  else if i =? 10 then str "\n"
  else if i =? 12 then str "\f"
  else if i =? 13 then str "\r"
  else if i =? 27 then str "\e"
  else str "\x" ++ hexadecimal i.

(** unparser.cpp:85-113 *)
Definition byteToCharacterString (i : Z) : list Z := if i =? 8 then str "\b" else byteToLiteralString i.

(** unparser.cpp:127-143: sizediff and hasBoth; [start], left in the code, is where the current run begins. *)
Definition size_step (bs : Z -> bool) (s : Z * Z * bool) (i : Z) : Z * Z * bool :=
  let '(sizediff, start, both) := s in
  let both := both || ((i <? 256) && xorb (bs i) (bs 0)) in
  if (i =? 256) || xorb (bs (i - 1)) (bs i) then
    let len := Z.min (i - start) 3 in
    (sizediff + (if bs (i - 1) then len else - len), i, both)
  else (sizediff, start, both).
Definition upto (a n : nat) : list Z := map Z.of_nat (seq a n).
Definition sizes (bs : Z -> bool) : Z * Z * bool := fold_left (size_step bs) (upto 1 256) (-1, 0, false).
Definition has_both (bs : Z -> bool) : bool := snd (sizes bs).
Definition inverted (bs : Z -> bool) : bool := 0 <? fst (fst (sizes bs)).

(** The variables of the loop, unparser.cpp:153-163; [cl_left] is 256 outside a range. *)
Record cl_state := { cl_out : list Z; cl_first : bool; cl_caret : bool; cl_hyphen : bool; cl_left : Z }.

(** unparser.cpp:208-222: a range of at most three *)
Fixpoint enumerate (n : nat) (j : Z) (first : bool) : list Z * bool :=
  match n with
  | O => ([], first)
  | S m =>
      let esc := if (j =? 93) && negb first then [92] else [] in
      let (s, f) := enumerate m (j + 1) (if j =? 93 then false else first) in
      (esc ++ byteToCharacterString j ++ s, f)
  end.

(** unparser.cpp:208-245: writing the range from [lo] to [hi].  If the caret was taken off a
    range that then is empty, the loop goes on before this (198-203). *)
Definition write_range (first : bool) (lo hi : Z) : list Z :=
  if hi - lo + 1 <? 4 then fst (enumerate (Z.to_nat (hi - lo + 1)) lo first)
  else
    (if (lo =? 93) && negb first then [92] else []) ++ byteToCharacterString lo ++ [45] ++
    (if hi =? 93 then [92] else []) ++ byteToCharacterString hi.

(** unparser.cpp:165-247: one round of the loop *)
Definition class_step (bs : Z -> bool) (invert : bool) (s : cl_state) (i : Z) : cl_state :=
  if (i <? 256) && xorb invert (bs i) then
    if 255 <? cl_left s then {| cl_out := cl_out s; cl_first := cl_first s; cl_caret := cl_caret s; cl_hyphen := cl_hyphen s; cl_left := i |} else s
  else if cl_left s <=? 255 then
    let hi := i - 1 in
    (* 176-192: the hyphen is taken off the ends *)
    let hyphen := cl_hyphen s || (cl_left s =? 45) || (hi =? 45) in
    let lo := if cl_left s =? 45 then cl_left s + 1 else cl_left s in
    let hi1 := if cl_left s =? 45 then hi else if hi =? 45 then hi - 1 else hi in
    if (cl_left s =? 45) && (cl_left s =? hi) then
      {| cl_out := cl_out s; cl_first := false; cl_caret := cl_caret s; cl_hyphen := true; cl_left := 256 |}
    else
      (* 194-206: the caret is taken off the beginning *)
      if (cl_first s || hyphen) && (lo =? 94) then
        if lo =? hi1 then {| cl_out := cl_out s; cl_first := false; cl_caret := true; cl_hyphen := hyphen; cl_left := 256 |}
        else {| cl_out := cl_out s ++ write_range (cl_first s) (lo + 1) hi1; cl_first := false; cl_caret := true; cl_hyphen := hyphen; cl_left := 256 |}
      else {| cl_out := cl_out s ++ write_range (cl_first s) lo hi1; cl_first := false; cl_caret := cl_caret s; cl_hyphen := hyphen; cl_left := 256 |}
  else s.

Definition class_loop (bs : Z -> bool) (invert : bool) : cl_state :=
  fold_left (class_step bs invert) (upto 0 257) {| cl_out := if invert then [94] else []; cl_first := true; cl_caret := false; cl_hyphen := false; cl_left := 256 |}.

(** unparser.cpp:249-273: the hyphen and the caret at the end *)
Definition end_text (s : cl_state) : list Z :=
  cl_out s ++
  (if cl_hyphen s then
     if cl_caret s then if match cl_out s with [] => true | _ => false end then [45; 94] else [94; 45] else [45]
   else if cl_caret s then (if match cl_out s with [] => true | _ => false end then [92; 94] else [94]) else []).

(** unparser.cpp:125-274 *)
Definition byteSetToCharacterClass (bs : Z -> bool) : list Z :=
  if negb (has_both bs) then (if bs 0 then str "\x00-\xFF" else str "^\x00-\xFF")
  else end_text (class_loop bs (inverted bs)).

(** unparser.cpp:334-336: CodePoints.test *)
Definition low_bytes (v : rset) (i : Z) : bool := rs_test v (Z.to_N i).

(** parsenode.cpp:20-50 *)
Definition repetition (mn mx : N) : list Z :=
  if (mn =? 0)%N && (mx =? 1)%N then str "?"
  else if (mn =? 0)%N && (mx =? UNBOUNDED)%N then str "*"
  else if (mn =? 1)%N && (mx =? UNBOUNDED)%N then str "+"
  else str "{" ++ decimal (Z.of_N mn) ++
       (if (mx =? UNBOUNDED)%N then str "," else if (mx =? mn)%N then [] else str "," ++ decimal (Z.of_N mx)) ++ str "}".

(** unparser.cpp:31-34; BYTE is not among them. *)
Definition is_atomic (t : pnode) : bool :=
  match t with PAtom (AByte _) => false | PAtom _ => true | _ => false end.
Definition in_parens (s : list Z) : list Z := str "(" ++ s ++ str ")".

(** unparser.cpp:276-354; look-around nodes are refused with an exception. *)
Fixpoint unparse (n : pnode) : res (list Z) :=
  match n with
  | PLook _ _ => Throw
  | PAlt l r => a <- unparse l ;; b <- unparse r ;; Ok (a ++ str "|" ++ b)
  | PCat l r =>
      a <- unparse l ;; b <- unparse r ;;
      let alternation t := match t with PAlt _ _ => true | _ => false end in
      Ok ((if alternation l then in_parens a else a) ++ (if alternation r then in_parens b else b))
  | PRep g t mn mx =>
      a <- unparse t ;;
      Ok ((if is_atomic t then a else in_parens a) ++ repetition mn mx ++ (if g then [] else str "?"))
  | PAtom ADot => Ok (str ".")
  | PAtom (AClass v _ _) => Ok (str "[" ++ byteSetToCharacterClass (low_bytes v) ++ str "]")
  | PAtom (ALit c) => Ok (byteToLiteralString c)
  | PAtom (AByte b) => Ok (byteToLiteralString (Z.of_N b))
  end.

(** The bytes of the string, to be read again *)
Definition as_bytes (s : list Z) : list N := map Z.to_N s.
