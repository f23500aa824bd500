(** The pattern parser: src/lib/re_grammar.ypp, include/unicode.h:25-140 and src/lib/parsetree.cpp:21-71.

    The rules of the grammar are given twice.  The relations [charclass], [alt] and so on below are
    the rules as written, one constructor per rule or per group of rules that differ only in the
    token looked at; they also say how many nodes are added to the tree.  [p_alt] and so on are a
    parser by recursive descent that makes the choices bison makes for this grammar: the two
    conflicts (re_grammar.ypp:101-102) and the precedences are resolved by shifting.

    Bison's tables, its stack and its limit of 10000 stack entries are not modelled.  Every syntax
    error ends in an exception: yyerror throws, or the rule with the token "error" throws, or yyparse
    fails and parseAndReduce throws (parser.cpp:41-43).  The text of the message is left out.

    ICU is a parameter [icu]: the code point of a name, the set of a property, and closing a set
    under case.  HAVE_ICU is assumed. *)
From Verif Require Import Base RangeSetModel ByteSetModel UtfModel EscModel PatModel EncModel.
Open Scope Z_scope.

(** * From bytes to code points *)

(** unicode.h:36-96: the number of bytes used and the code point, -1 if it is bogus.  When a sequence
    is cut short by the end of the text, the byte that is not there counts as used. *)
Definition utf8_to_unicode (l : list N) : nat * Z :=
  match l with
  | [] => (0%nat, -1)
  | x :: r =>
      let cp := N.land x 255 in
      if (cp <? 128)%N then (1%nat, Z.of_N cp)
      else if (cp <? 224)%N then
        if (cp <? 194)%N then (1%nat, -1) else
        match continuation r (N.land cp 31) with
        | None => (2%nat, -1)
        | Some (_, c1) => (2%nat, Z.of_N c1)
        end
      else if (cp <? 240)%N then
        match continuation r (N.land cp 15) with
        | None => (2%nat, -1)
        | Some (r1, c1) =>
            match continuation r1 c1 with
            | None => (3%nat, -1)
            | Some (_, c2) =>
                (3%nat, if (c2 <? 2048)%N || ((55295 <? c2)%N && (c2 <? 57344)%N) then -1 else Z.of_N c2)
            end
        end
      else if (cp <? 245)%N then
        match continuation r (N.land cp 7) with
        | None => (2%nat, -1)
        | Some (r1, c1) =>
            match continuation r1 c1 with
            | None => (3%nat, -1)
            | Some (r2, c2) =>
                match continuation r2 c2 with
                | None => (4%nat, -1)
                | Some (_, c3) => (4%nat, if (c3 <? 65536)%N || (1114111 <? c3)%N then -1 else Z.of_N c3)
                end
            end
        end
      else (1%nat, -1)
  end.

(** unicode.h:114-137.  Going past the end makes [ibegin != iend] hold for ever: undefined. *)
Fixpoint transform (fuel : nat) (l : list N) : res (list Z) :=
  match fuel with
  | O => Fuel
  | S f =>
      match l with
      | [] => Ok []
      | _ =>
          let (used, cp) := utf8_to_unicode l in
          if (length l <? used)%nat then UB else
          rest <- transform f (skipn used l) ;; Ok (cp :: rest)
      end
  end.
Definition transform_utf8_to_unicode (l : list N) : res (list Z) := transform (S (length l)) l.

(** * Tokens *)

(** re_grammar.ypp:1177-1240 and 1275-1279: what a SET token stands for; [neg] for the capital
    letter.  The set is worked out where the token is used: the options are then the same as when
    it was read, because no option changes between reading a token and using it. *)
Inductive setname := SDigit (neg : bool) | SSpace (neg : bool) | SHoriz (neg : bool) | SVert (neg : bool) | SWord (neg : bool)
  | SProperty (text : list Z).

(** re_grammar.ypp:108-123; [TP c] is the token of the character [c]. *)
Inductive tok := TP (c : Z) | TChar (c : Z) | TDigit (c : Z) | TByte (b : Z) | TMinus | TAnd | TXor
  | TStart | TEnd | TNonWord | TKill | TSmallB | TSet (s : setname) | TBad.

Record icu := { ic_name : list Z -> Z; ic_prop : list Z -> bool -> res rset; ic_close : rset -> N * rset }.

(** unicode_to_ascii, unicode.h:99-111 and parseutil.h:129-138.  A last character that is not a byte
    is dropped without complaint, because the iterator has already moved past it. *)
Fixpoint to_ascii (l : list Z) : option (list Z) :=
  match l with
  | [] => Some []
  | c :: t =>
      if (0 <=? c) && (c <=? 255) then option_map (cons c) (to_ascii t)
      else match t with [] => Some [] | _ => None end
  end.

(** The text before the first '}' and the text after it. *)
Fixpoint to_brace (l : list Z) : option (list Z * list Z) :=
  match l with
  | [] => None
  | c :: t => if c =? 125 then Some ([], t) else option_map (fun p => (c :: fst p, snd p)) (to_brace t)
  end.

(** prepareStringForICU, parseutil.h:140-157 *)
Definition prepareStringForICU (l : list Z) : option (list Z * list Z) :=
  match to_brace l with
  | None => None
  | Some (name, r) => option_map (fun s => (s, r)) (to_ascii name)
  end.

Section Lexer.
Variable I : icu.

(** consumeSingleton, re_grammar.ypp:1097-1107 *)
Definition singleton (mk : Z -> tok) (p : Z * list Z) : tok * list Z :=
  let (v, r) := p in if v <? 0 then (TBad, r) else (mk v, r).

(** parseNamedCodePoint, parseutil.h:161-194 *)
Definition parseNamedCodePoint (s : list Z) : Z * list Z :=
  match s with
  | [] => (-1, s)
  | c :: t =>
      if negb (c =? 123) then (-1, t)
      else match t with
           | a :: b :: r =>
               if (a =? 85) && (b =? 43) then parseHexCodePoint r
               else match prepareStringForICU t with None => (-1, t) | Some (name, r') => (ic_name I name, r') end
           | _ => match prepareStringForICU t with None => (-1, t) | Some (name, r') => (ic_name I name, r') end
           end
  end.

(** parseProperty, parseutil.h:198-223, [s] starting at the backslash *)
Definition parseProperty (s : list Z) : option (list Z * list Z) :=
  match s with
  | _ :: _ :: c :: _ => if negb (c =? 123) then None
                        else option_map (fun p => (fst p ++ [125], snd p)) (prepareStringForICU s)
  | _ => None
  end.

(** re_grammar.ypp:1132-1154 *)
Definition is_escaped_meta (c : Z) : bool :=
  existsb (Z.eqb c) [124; 40; 41; 63; 43; 42; 46; 91; 93; 94; 36; 45; 123; 125; 38; 126; 60; 61; 33; 92].

(** consumeEscape, re_grammar.ypp:1125-1296; [s] is the text after the backslash. *)
Definition consumeEscape (s : list Z) : tok * list Z :=
  match s with
  | [] => (TBad, [])
  | c :: t =>
      if is_escaped_meta c then (TChar c, t)
      else if c =? 97 then (TChar 7, t)             (* \a *)
      else if c =? 101 then (TChar 27, t)           (* \e *)
      else if c =? 102 then (TChar 12, t)           (* \f *)
      else if c =? 110 then (TChar 10, t)           (* \n *)
      else if c =? 114 then (TChar 13, t)           (* \r *)
      else if c =? 116 then (TChar 9, t)            (* \t *)
      else if c =? 100 then (TSet (SDigit false), t)
      else if c =? 68 then (TSet (SDigit true), t)
      else if c =? 115 then (TSet (SSpace false), t)
      else if c =? 83 then (TSet (SSpace true), t)
      else if c =? 104 then (TSet (SHoriz false), t)
      else if c =? 72 then (TSet (SHoriz true), t)
      else if c =? 118 then (TSet (SVert false), t)
      else if c =? 86 then (TSet (SVert true), t)
      else if c =? 119 then (TSet (SWord false), t)
      else if c =? 87 then (TSet (SWord true), t)
      else if c =? 120 then                         (* \x *)
        match t with
        | [] => (TBad, [])
        | d :: u => if d =? 123 then singleton TChar (parseHexCodePoint u) else singleton TChar (parseHexByte t)
        end
      else if c =? 122 then singleton TByte (parseHexByte t)    (* \z *)
      else if (48 <=? c) && (c <=? 55) then singleton TChar (parseOctByte s)
      else if c =? 78 then singleton TChar (parseNamedCodePoint t)  (* \N *)
      else if (c =? 112) || (c =? 80) then          (* \p, \P *)
        match parseProperty (92 :: s) with Some (p, r) => (TSet (SProperty p), r) | None => (TBad, t) end
      else if c =? 65 then (TStart, t)
      else if c =? 66 then (TNonWord, t)
      else if c =? 75 then (TKill, t)
      else if c =? 90 then (TEnd, t)
      else if c =? 98 then (TSmallB, t)
      else (TBad, t)
  end.

(** re_grammar.ypp:1317-1337 *)
Definition is_punct (c : Z) : bool :=
  existsb (Z.eqb c) [97; 105; 124; 40; 41; 63; 43; 42; 46; 91; 93; 94; 36; 123; 125; 44; 60; 61; 33].

(** yylex, re_grammar.ypp:1298-1412, for the text [c :: t] *)
Definition yylex (literal : bool) (c : Z) (t : list Z) : tok * list Z :=
  if c <? 1 then (TBad, t)
  else if literal then (TChar c, t)
  else if is_punct c then (TP c, t)
  else if c =? 38 then
    match t with d :: r => if d =? 38 then (TAnd, r) else (TChar c, t) | [] => (TChar c, t) end
  else if c =? 126 then
    match t with d :: r => if d =? 126 then (TXor, r) else (TChar c, t) | [] => (TChar c, t) end
  else if c =? 45 then
    match t with
    | d :: r => if d =? 93 then (TChar c, t) else if d =? 45 then (TMinus, r) else (TP c, t)
    | [] => (TChar c, t)
    end
  else if c =? 92 then consumeEscape t
  else if (48 <=? c) && (c <=? 57) then (TDigit c, t)
  else (TChar c, t).

(** All tokens of a text; nothing is read after an invalid one. *)
Fixpoint lex (fuel : nat) (literal : bool) (s : list Z) : list tok :=
  match fuel with
  | O => []
  | S f =>
      match s with
      | [] => []
      | c :: t => match yylex literal c t with
                  | (TBad, _) => [TBad]
                  | (k, r) => k :: lex f literal r
                  end
      end
  end.

(** * Sets *)

Record opts := { cased : bool; ascii : bool }.

Definition MAXCP : N := 1114112.

(** caseDesensitizeUnicode, parseutil.cpp:104-117 *)
Definition caseDesensitizeUnicode (us : rset) : res (rset * bool) :=
  n <- rs_count us ;;
  let (size, c) := ic_close I us in
  if (size =? n)%N then Ok (us, false) else Ok (c, true).

(** caseDesensitizeAscii, parseutil.cpp:120-154 *)
Definition caseDesensitizeAscii (us : rset) : res (rset * bool) :=
  n <- rs_count us ;;
  up <- rs_and MAXCP us [65; 91]%N ;;
  let us1 := fold_left (fun v r => rs_insert v (fst r + 32) (snd r + 32)) (ranges up) us in
  lo <- rs_and MAXCP us1 [97; 123]%N ;;
  let us2 := fold_left (fun v r => rs_insert v (fst r - 32) (snd r - 32)) (ranges lo) us1 in
  high <- rs_and MAXCP us2 [128; MAXCP]%N ;;
  us3 <- (if rs_any high then
            ' p <- caseDesensitizeUnicode high ;;
            if snd p then rs_or us2 (fst p) else Ok us2
          else Ok us2) ;;
  m <- rs_count us3 ;;
  Ok (us3, (n <? m)%N).

(** parseutil.cpp:156-162 *)
Definition caseDesensitize (us : rset) (o : opts) : res (rset * bool) :=
  if ascii o then caseDesensitizeAscii us else caseDesensitizeUnicode us.

Fixpoint inserts (v : rset) (l : list (N * N)) : rset :=
  match l with [] => v | (a, b) :: r => inserts (rs_insert v a b) r end.

(** parseutil.cpp:181-217; us.set(c) is us.insert(c, c+1) (rangeset.h:211-217). *)
Definition horiz : list (N * N) :=
  [(9, 10); (32, 33); (160, 161); (5760, 5761); (6158, 6159); (8192, 8203); (8239, 8240); (8287, 8288); (12288, 12289)]%N.
Definition vert : list (N * N) := [(10, 14); (133, 134); (8232, 8234)]%N.
Definition word : list (N * N) := [(48, 58); (65, 91); (95, 96); (97, 123)]%N.
Definition linebreak : rset := inserts [] [(10, 14); (133, 134); (8232, 8233); (8233, 8234)]%N.

Definition prop_nd : list Z := [92; 112; 123; 78; 100; 125].
Definition prop_l : list Z := [92; 112; 123; 76; 125].
Definition prop_n : list Z := [92; 112; 123; 78; 125].

Definition negate (neg : bool) (v : rset) : res rset := if neg then rs_flip MAXCP v else Ok v.

(** re_grammar.ypp:1109-1121 and 1177-1240; parseutil.cpp:164-262 *)
Definition resolve (o : opts) (s : setname) : res rset :=
  match s with
  | SDigit neg => v <- (if ascii o then Ok (inserts [] [(48, 58)]%N) else ic_prop I prop_nd false) ;; negate neg v
  | SSpace neg => negate neg (if ascii o then inserts [] [(9, 14); (32, 33)]%N else inserts (inserts [] horiz) vert)
  | SHoriz neg => negate neg (inserts [] horiz)
  | SVert neg => negate neg (inserts [] vert)
  | SWord neg =>
      v <- (if ascii o then Ok (inserts [] word)
            else l <- ic_prop I prop_l false ;; n <- ic_prop I prop_n false ;; u <- rs_or l n ;; Ok (rs_insert u 95 96)) ;;
      negate neg v
  | SProperty p => ic_prop I p (negb (cased o))
  end.

(** * Character classes, re_grammar.ypp:520-1089 *)

(** CharacterClassInternals, parsenode.h:61-68 *)
Record cset := { cs_cps : rset; cs_bytes : bset; cs_add : bool }.

Definition bs_any (b : bset) : bool := existsb (fun x => negb (x =? 0)%N) b.
Definition bs_xor := bs_map2 N.lxor.

(** The end of a class, re_grammar.ypp:520-539 *)
Definition finish_pos (o : opts) (c : cset) : res cset :=
  ' p <- (if cased o then Ok (cs_cps c, false) else caseDesensitize (cs_cps c) o) ;;
  if rs_any (fst p) || bs_any (cs_bytes c) then Ok {| cs_cps := fst p; cs_bytes := cs_bytes c; cs_add := cs_add c |}
  else Throw.

(** re_grammar.ypp:540-590 *)
Definition finish_neg (o : opts) (c : cset) : res cset :=
  if rs_any (cs_cps c) then
    ' p <- (if cased o then Ok (cs_cps c, false) else caseDesensitize (cs_cps c) o) ;;
    v <- rs_flip MAXCP (fst p) ;;
    if rs_any v then Ok {| cs_cps := v; cs_bytes := cs_bytes c; cs_add := if bs_any (cs_bytes c) then false else cs_add c |}
    else Throw
  else if bs_any (cs_bytes c) then
    let b := bs_not (cs_bytes c) in
    if bs_any b then Ok {| cs_cps := cs_cps c; cs_bytes := b; cs_add := cs_add c |} else Throw
  else
    v <- rs_flip MAXCP (cs_cps c) ;;
    Ok {| cs_cps := v; cs_bytes := cs_bytes c; cs_add := cs_add c |}.

(** re_grammar.ypp:991-1082.  At the first place of a class ']' and '-' are characters and '^' is
    not; elsewhere it is the other way round. *)
Definition cc_char (first : bool) (t : tok) : option Z :=
  match t with
  | TChar c | TDigit c => Some c
  | TSmallB => Some 8
  | TP c =>
      if existsb (Z.eqb c) [97; 105; 124; 40; 41; 63; 43; 42; 46; 123; 125; 44; 60; 61; 33; 36] then Some c
      else if first then if (c =? 93) || (c =? 45) then Some c else None
      else if c =? 94 then Some c else None
  | _ => None
  end.

(** The four kinds of leaves of a class, re_grammar.ypp:839-895 and 927-988 *)
Definition empty_cset : cset := {| cs_cps := []; cs_bytes := bs_empty; cs_add := true |}.
Definition char_set (a : Z) : res cset :=
  v <- rs_set MAXCP [] (Z.to_N a) true ;; Ok {| cs_cps := v; cs_bytes := bs_empty; cs_add := true |}.
Definition char_range (a b : Z) : res cset :=
  if b <=? a then Throw else Ok {| cs_cps := rs_insert [] (Z.to_N a) (Z.to_N b + 1); cs_bytes := bs_empty; cs_add := true |}.
Definition byte_set (a : Z) : res cset :=
  b <- bs_set1 bs_empty (Z.to_N a) true ;; Ok {| cs_cps := []; cs_bytes := b; cs_add := true |}.
Definition byte_range (a b : Z) : res cset :=
  if b <=? a then Throw else
  s <- bs_set bs_empty (Z.to_N a) (Z.to_N b + 1) true ;; Ok {| cs_cps := []; cs_bytes := s; cs_add := true |}.
(** x-[...]: the character, the hyphen and the class *)
Definition char_dash (a : Z) (c : cset) : res cset :=
  Ok {| cs_cps := rs_insert (rs_insert (cs_cps c) (Z.to_N a) (Z.to_N a + 1)) 45 46; cs_bytes := cs_bytes c; cs_add := cs_add c |}.
Definition byte_dash (a : Z) (c : cset) : res cset :=
  b <- bs_set1 (cs_bytes c) (Z.to_N a) true ;;
  Ok {| cs_cps := rs_insert (cs_cps c) 45 46; cs_bytes := b; cs_add := cs_add c |}.

(** The set operations, re_grammar.ypp:814-838 and 898-922 *)
Inductive setop := OUnion | OAnd | OMinus | OXor.
Definition op_toks (op : setop) : list tok :=
  match op with OUnion => [] | OAnd => [TAnd] | OMinus => [TMinus] | OXor => [TXor] end.
Definition combine (op : setop) (x y : cset) : res cset :=
  match op with
  | OUnion => v <- rs_or (cs_cps x) (cs_cps y) ;; Ok {| cs_cps := v; cs_bytes := bs_or (cs_bytes x) (cs_bytes y); cs_add := cs_add x |}
  | OAnd => v <- rs_and MAXCP (cs_cps x) (cs_cps y) ;; Ok {| cs_cps := v; cs_bytes := bs_and (cs_bytes x) (cs_bytes y); cs_add := cs_add x |}
  | OMinus => v <- rs_sub MAXCP (cs_cps x) (cs_cps y) ;; Ok {| cs_cps := v; cs_bytes := bs_sub (cs_bytes x) (cs_bytes y); cs_add := cs_add x |}
  | OXor => v <- rs_xor MAXCP (cs_cps x) (cs_cps y) ;; Ok {| cs_cps := v; cs_bytes := bs_xor (cs_bytes x) (cs_bytes y); cs_add := cs_add x |}
  end.

Section Class.
Variable o : opts.

(** [charclass ts c n]: the tokens [ts] form a class with the value [c]; [n] nodes are added.
    [cc_elem first] stands for the leaves: those of cc_expr_pos when [first], those of cc_atom
    otherwise.  [cc_expr pos] is cc_expr_pos or cc_expr_neg.  The second flag says that the last leaf
    is one character or byte: a hyphen after it is shifted (%nonassoc '-', re_grammar.ypp:135), so that
    it is the hyphen of a range and no leaf of its own. *)
Definition hyphen_next (ts : list tok) : bool := match ts with TP c :: _ => c =? 45 | _ => false end.
Inductive charclass : list tok -> cset -> nat -> Prop :=
| cl_pos b ts c n c' : cc_expr true b ts c n -> finish_pos o c = Ok c' -> charclass (TP 91 :: ts ++ [TP 93]) c' n
| cl_neg b ts c n c' : cc_expr false b ts c n -> finish_neg o c = Ok c' -> charclass (TP 91 :: TP 94 :: ts ++ [TP 93]) c' n
| cl_named s v : resolve o s = Ok v -> charclass [TSet s] {| cs_cps := v; cs_bytes := bs_empty; cs_add := true |} 1
with cc_expr : bool -> bool -> list tok -> cset -> nat -> Prop :=
| ce_elem pos b ts c n : cc_elem pos b ts c n -> cc_expr pos b ts c n
| ce_op pos b1 b2 op ts1 ts2 x y z n m : cc_expr pos b1 ts1 x n -> cc_elem false b2 ts2 y m ->
    (b1 = true -> hyphen_next (op_toks op ++ ts2) = false) -> combine op x y = Ok z ->
    cc_expr pos b2 (ts1 ++ op_toks op ++ ts2) z (n + m)
with cc_elem : bool -> bool -> list tok -> cset -> nat -> Prop :=
| el_range first k1 k2 a b c : cc_char first k1 = Some a -> cc_char false k2 = Some b -> char_range a b = Ok c ->
    cc_elem first false [k1; TP 45; k2] c 1
| el_dash first k1 a ts c n c' : cc_char first k1 = Some a -> charclass ts c n -> char_dash a c = Ok c' ->
    cc_elem first false (k1 :: TP 45 :: ts) c' n
| el_byte_range first a b c : byte_range a b = Ok c -> cc_elem first false [TByte a; TP 45; TByte b] c 1
| el_byte_dash first a ts c n c' : charclass ts c n -> byte_dash a c = Ok c' -> cc_elem first false (TByte a :: TP 45 :: ts) c' n
| el_class first ts c n : charclass ts c n -> cc_elem first false ts c n
| el_char first k a c : cc_char first k = Some a -> char_set a = Ok c -> cc_elem first true [k] c 1
| el_hyphen c : char_set 45 = Ok c -> cc_elem false false [TP 45] c 1
| el_byte first a c : byte_set a = Ok c -> cc_elem first true [TByte a] c 1.

(** The parser for classes *)
Definition starts_class (ts : list tok) : bool :=
  match ts with TP c :: _ => c =? 91 | TSet _ :: _ => true | _ => false end.

Fixpoint p_class (f : nat) (ts : list tok) : res (cset * nat * list tok) :=
  match f with
  | O => Fuel
  | S f =>
      match ts with
      | TSet s :: r => v <- resolve o s ;; Ok ({| cs_cps := v; cs_bytes := bs_empty; cs_add := true |}, 1%nat, r)
      | TP c :: r =>
          if negb (c =? 91) then Throw else
          match r with
          | TP d :: r1 =>
              if d =? 94 then
                ' p <- p_elem f false r1 ;;
                ' q <- p_ops f (fst (fst p)) (snd (fst p)) (snd p) ;;
                c' <- finish_neg o (fst (fst q)) ;;
                match snd q with TP e :: r2 => if e =? 93 then Ok (c', snd (fst q), r2) else Throw | _ => Throw end
              else
                ' p <- p_elem f true r ;;
                ' q <- p_ops f (fst (fst p)) (snd (fst p)) (snd p) ;;
                c' <- finish_pos o (fst (fst q)) ;;
                match snd q with TP e :: r2 => if e =? 93 then Ok (c', snd (fst q), r2) else Throw | _ => Throw end
          | _ =>
              ' p <- p_elem f true r ;;
              ' q <- p_ops f (fst (fst p)) (snd (fst p)) (snd p) ;;
              c' <- finish_pos o (fst (fst q)) ;;
              match snd q with TP e :: r2 => if e =? 93 then Ok (c', snd (fst q), r2) else Throw | _ => Throw end
          end
      | _ => Throw
      end
  end
with p_ops (f : nat) (x : cset) (n : nat) (ts : list tok) : res (cset * nat * list tok) :=
  match f with
  | O => Fuel
  | S f =>
      let next op r :=
        ' p <- p_elem f false r ;;
        z <- combine op x (fst (fst p)) ;;
        p_ops f z (n + snd (fst p)) (snd p) in
      match ts with
      | [] => Throw
      | TAnd :: r => next OAnd r
      | TMinus :: r => next OMinus r
      | TXor :: r => next OXor r
      | TP c :: r => if c =? 93 then Ok (x, n, ts) else next OUnion ts
      | _ => next OUnion ts
      end
  end
with p_elem (f : nat) (first : bool) (ts : list tok) : res (cset * nat * list tok) :=
  match f with
  | O => Fuel
  | S f =>
      match ts with
      | [] => Throw
      | k :: r =>
          match cc_char first k with
          | Some a =>
              match r with
              | TP d :: r1 =>
                  if d =? 45 then
                    if starts_class r1 then
                      ' p <- p_class f r1 ;; c <- char_dash a (fst (fst p)) ;; Ok (c, snd (fst p), snd p)
                    else
                      match r1 with
                      | k2 :: r2 => match cc_char false k2 with
                                    | Some b => c <- char_range a b ;; Ok (c, 1%nat, r2)
                                    | None => Throw
                                    end
                      | [] => Throw
                      end
                  else c <- char_set a ;; Ok (c, 1%nat, r)
              | _ => c <- char_set a ;; Ok (c, 1%nat, r)
              end
          | None =>
              if starts_class ts then p_class f ts
              else match k with
                   | TByte a =>
                       match r with
                       | TP d :: r1 =>
                           if d =? 45 then
                             if starts_class r1 then
                               ' p <- p_class f r1 ;; c <- byte_dash a (fst (fst p)) ;; Ok (c, snd (fst p), snd p)
                             else
                               match r1 with
                               | TByte b :: r2 => c <- byte_range a b ;; Ok (c, 1%nat, r2)
                               | _ => Throw
                               end
                           else c <- byte_set a ;; Ok (c, 1%nat, r)
                       | _ => c <- byte_set a ;; Ok (c, 1%nat, r)
                       end
                   | TP d => if (d =? 45) && negb first then c <- char_set 45 ;; Ok (c, 1%nat, r) else Throw
                   | _ => Throw
                   end
          end
      end
  end.
End Class.

(** * Patterns, re_grammar.ypp:139-518 *)

(** The switches, re_grammar.ypp:176-212: turning on sets ASCII mode or ignores case. *)
Definition turn (on : bool) (t : tok) (o : opts) : option opts :=
  match t with
  | TP c => if c =? 97 then Some {| cased := cased o; ascii := on |}
            else if c =? 105 then Some {| cased := negb on; ascii := ascii o |}
            else None
  | _ => None
  end.
Fixpoint turns (on : bool) (ts : list tok) (o : opts) : option opts :=
  match ts with [] => Some o | k :: r => match turn on k o with None => None | Some o' => turns on r o' end end.
Inductive switch (o : opts) : list tok -> opts -> Prop :=
| sw_on ts o' : ts <> [] -> turns true ts o = Some o' -> switch o (TP 40 :: TP 63 :: ts ++ [TP 41]) o'
| sw_off ts o' : ts <> [] -> turns false ts o = Some o' -> switch o (TP 40 :: TP 63 :: TP 45 :: ts ++ [TP 41]) o'
| sw_both ts o1 us o' : ts <> [] -> turns true ts o = Some o1 -> us <> [] -> turns false us o1 = Some o' ->
    switch o (TP 40 :: TP 63 :: ts ++ TP 45 :: us ++ [TP 41]) o'.

(** number, re_grammar.ypp:292-302; an int: going past 2147483647 is undefined. *)
Definition INT_MAX : Z := 2147483647.
Inductive number : list tok -> Z -> Prop :=
| nu_one d : number [TDigit d] (d - 48)
| nu_more ts v d : number ts v -> v * 10 + (d - 48) <= INT_MAX -> number (ts ++ [TDigit d]) (v * 10 + (d - 48)).

(** The repetition operators without the final '?', re_grammar.ypp:214-290; [n] TEMPORARY nodes. *)
Inductive quant : list tok -> N -> N -> nat -> Prop :=
| qu_star : quant [TP 42] 0 UNBOUNDED 0
| qu_plus : quant [TP 43] 1 UNBOUNDED 0
| qu_opt : quant [TP 63] 0 1 0
| qu_exact ts v : number ts v -> quant (TP 123 :: ts ++ [TP 125]) (Z.to_N v) (Z.to_N v) 1
| qu_least ts v : number ts v -> quant (TP 123 :: ts ++ [TP 44; TP 125]) (Z.to_N v) UNBOUNDED 1
| qu_between ts v us w : number ts v -> number us w -> v <= w ->
    quant (TP 123 :: ts ++ TP 44 :: us ++ [TP 125]) (Z.to_N v) (Z.to_N w) 2.

(** Node types, parsenode.h:30-45 *)
Definition LOOKBEHIND_POS : N := 1.
Definition LOOKBEHIND_NEG : N := 2.
Definition LOOKAHEAD_POS : N := 3.
Definition LOOKAHEAD_NEG : N := 4.

Definition class_node (v : rset) : pnode := PAtom (AClass v bs_empty true).
Definition cset_node (c : cset) : pnode := PAtom (AClass (cs_cps c) (cs_bytes c) (cs_add c)).
Definition two (c : Z) : pnode := PCat (PAtom (ALit c)) (PAtom (ALit c)).

(** re_grammar.ypp:336-389 *)
Definition word_class : rset := inserts [] word.
Definition word_boundary (neg : bool) : res pnode :=
  flipped <- rs_flip MAXCP word_class ;;
  let w := class_node word_class in
  let W := class_node flipped in
  Ok (if neg then PAlt (PCat (PLook LOOKBEHIND_NEG w) (PLook LOOKAHEAD_NEG w)) (PCat (PLook LOOKBEHIND_NEG W) (PLook LOOKAHEAD_NEG W))
      else PAlt (PCat (PLook LOOKBEHIND_NEG w) (PLook LOOKAHEAD_NEG W)) (PCat (PLook LOOKBEHIND_NEG W) (PLook LOOKAHEAD_NEG w))).

(** character, re_grammar.ypp:475-518 *)
Definition character (t : tok) : option Z :=
  match t with
  | TChar c | TDigit c => Some c
  | TP c => if existsb (Z.eqb c) [97; 105; 93; 45; 123; 125; 44; 60; 61; 33] then Some c else None
  | _ => None
  end.

(** re_grammar.ypp:430-446 *)
Definition literal_node (o : opts) (c : Z) : res pnode :=
  if cased o then Ok (PAtom (ALit c))
  else
    s <- rs_set MAXCP [] (Z.to_N c) true ;;
    ' p <- caseDesensitize s o ;;
    Ok (if snd p then class_node (fst p) else PAtom (ALit c)).

(** The atoms made of one token, re_grammar.ypp:336-471, and the number of nodes they add *)
Definition simple_atom (o : opts) (t : tok) : option (res (pnode * nat)) :=
  match t with
  | TSmallB => Some (b <- word_boundary false ;; Ok (b, 11%nat))
  | TNonWord => Some (b <- word_boundary true ;; Ok (b, 11%nat))
  | TStart => Some (Ok (PLook LOOKBEHIND_NEG (PAtom ADot), 2%nat))
  | TEnd => Some (Ok (PLook LOOKAHEAD_NEG (PAtom ADot), 2%nat))
  | TByte b => Some (Ok (PAtom (AByte (Z.to_N b)), 1%nat))
  | TMinus => Some (Ok (two 45, 3%nat))
  | TAnd => Some (Ok (two 38, 3%nat))
  | TXor => Some (Ok (two 126, 3%nat))
  | _ =>
      match character t with
      | Some c => Some (t <- literal_node o c ;; Ok (t, 1%nat))
      | None =>
          match t with
          | TP c => if c =? 46 then Some (Ok (PAtom ADot, 1%nat))
                    else if c =? 94 then Some (Ok (PLook LOOKBEHIND_NEG (class_node linebreak), 2%nat))
                    else if c =? 36 then Some (Ok (PLook LOOKAHEAD_NEG (class_node linebreak), 2%nat))
                    else None
          | _ => None
          end
      end
  end.

(** The four kinds of look-around groups after "(?", re_grammar.ypp:320-335 *)
Definition look (ts : list tok) : option (N * list tok) :=
  match ts with
  | TP a :: r =>
      if a =? 61 then Some (LOOKAHEAD_POS, r)
      else if a =? 33 then Some (LOOKAHEAD_NEG, r)
      else if a =? 60 then
        match r with
        | TP b :: r1 => if b =? 61 then Some (LOOKBEHIND_POS, r1) else if b =? 33 then Some (LOOKBEHIND_NEG, r1) else None
        | _ => None
        end
      else None
  | _ => None
  end.
Definition look_toks (k : N) : list tok :=
  if (k =? 1)%N then [TP 60; TP 61] else if (k =? 2)%N then [TP 60; TP 33] else if (k =? 3)%N then [TP 61] else [TP 33].

(** [alt o ts o' t n]: with the options [o] the tokens [ts] give the tree [t] and the options [o'],
    and [n] nodes are added.  A plain group restores the options (re_grammar.ypp:305-309); a
    look-around group does not.  The flag of [concat] and [rep] says that they end in an atom without
    an operator: a '{' after it is shifted (one of the two conflicts of re_grammar.ypp:101-102), so that
    it begins a repetition and is no character.  The other conflict, '|' after [switch alt], has no
    effect on the tree. *)
Definition brace_next (ts : list tok) : bool := match ts with TP c :: _ => c =? 123 | _ => false end.
Inductive alt : opts -> list tok -> opts -> pnode -> nat -> Prop :=
| al_concat b o ts o' t n : concat b o ts o' t n -> alt o ts o' t n
| al_or b o ts o1 t n us o2 u m : alt o ts o1 t n -> concat b o1 us o2 u m -> alt o (ts ++ TP 124 :: us) o2 (PAlt t u) (n + m + 1)
| al_switch o ts o1 us o2 t n : switch o ts o1 -> alt o1 us o2 t n -> alt o (ts ++ us) o2 t n
with concat : bool -> opts -> list tok -> opts -> pnode -> nat -> Prop :=
| co_rep b o ts o' t n : rep b o ts o' t n -> concat b o ts o' t n
| co_cat b1 b2 o ts o1 t n us o2 u m : concat b1 o ts o1 t n -> rep b2 o1 us o2 u m -> (b1 = true -> brace_next us = false) ->
    concat b2 o (ts ++ us) o2 (PCat t u) (n + m + 1)
| co_kill b o ts o1 t n : concat b o ts o1 t n -> concat false o (ts ++ [TKill]) o1 (PLook LOOKBEHIND_POS t) (n + 1)
| co_switch b o ts o1 t n us o2 : concat b o ts o1 t n -> switch o1 us o2 -> concat false o (ts ++ us) o2 t n
with rep : bool -> opts -> list tok -> opts -> pnode -> nat -> Prop :=
| re_atom o ts o' t n : patom o ts o' t n -> rep true o ts o' t n
| re_greedy o ts o' t n us mn mx m : patom o ts o' t n -> quant us mn mx m -> rep false o (ts ++ us) o' (PRep true t mn mx) (n + m + 1)
| re_lazy o ts o' t n us mn mx m : patom o ts o' t n -> quant us mn mx m ->
    rep false o (ts ++ us ++ [TP 63]) o' (PRep false t mn mx) (n + m + 1)
with patom : opts -> list tok -> opts -> pnode -> nat -> Prop :=
| at_group o ts o' t n : alt o ts o' t n -> patom o (TP 40 :: ts ++ [TP 41]) o t n
| at_look o k ts o' t n : (1 <= k <= 4)%N -> alt o ts o' t n ->
    patom o (TP 40 :: TP 63 :: look_toks k ++ ts ++ [TP 41]) o' (PLook k t) (n + 1)
| at_simple o k t n : simple_atom o k = Some (Ok (t, n)) -> patom o [k] o t n
| at_class o ts c n : charclass o ts c n -> patom o ts o (cset_node c) n.

(** * The parser *)

(** A switch at the beginning of the tokens *)
Fixpoint span_turn (ts : list tok) : list tok * list tok :=
  match ts with
  | TP c :: r => if (c =? 97) || (c =? 105) then let (a, b) := span_turn r in (TP c :: a, b) else ([], ts)
  | _ => ([], ts)
  end.
Definition p_switch (o : opts) (ts : list tok) : option (opts * list tok) :=
  match ts with
  | TP a :: TP b :: r =>
      if (a =? 40) && (b =? 63) then
        let (on, r1) := span_turn r in
        match turns true on o with
        | None => None
        | Some o1 =>
            match r1 with
            | TP c :: r2 =>
                if c =? 41 then match on with [] => None | _ => Some (o1, r2) end
                else if c =? 45 then
                  let (off, r3) := span_turn r2 in
                  match off, turns false off o1, r3 with
                  | _ :: _, Some o2, TP d :: r4 => if d =? 41 then Some (o2, r4) else None
                  | _, _, _ => None
                  end
                else None
            | _ => None
            end
        end
      else None
  | _ => None
  end.

Fixpoint p_digits (v : Z) (ts : list tok) : res (Z * list tok) :=
  match ts with
  | TDigit d :: r => let w := v * 10 + (d - 48) in if w <=? INT_MAX then p_digits w r else UB
  | _ => Ok (v, ts)
  end.
Definition p_number (ts : list tok) : res (Z * list tok) :=
  match ts with TDigit d :: r => p_digits (d - 48) r | _ => Throw end.

(** The operator after an atom, if there is one; the last part is the number of nodes. *)
Definition p_quant (ts : list tok) : res (option (N * N * nat) * list tok) :=
  match ts with
  | TP c :: r =>
      if c =? 42 then Ok (Some (0, UNBOUNDED, 0%nat), r)%N
      else if c =? 43 then Ok (Some (1, UNBOUNDED, 0%nat), r)%N
      else if c =? 63 then Ok (Some (0, 1, 0%nat), r)%N
      else if c =? 123 then
        ' p <- p_number r ;;
        match snd p with
        | TP d :: r1 =>
            if d =? 125 then Ok (Some (Z.to_N (fst p), Z.to_N (fst p), 1%nat), r1)
            else if d =? 44 then
              match r1 with
              | TP e :: r2 => if e =? 125 then Ok (Some (Z.to_N (fst p), UNBOUNDED, 1%nat), r2) else Throw
              | _ =>
                  ' q <- p_number r1 ;;
                  match snd q with
                  | TP e :: r2 =>
                      if e =? 125 then
                        if fst p <=? fst q then Ok (Some (Z.to_N (fst p), Z.to_N (fst q), 2%nat), r2) else Throw
                      else Throw
                  | _ => Throw
                  end
              end
            else Throw
        | _ => Throw
        end
      else Ok (None, ts)
  | _ => Ok (None, ts)
  end.

Definition state : Type := opts * pnode * nat * list tok.

Fixpoint p_alt (f : nat) (o : opts) (ts : list tok) : res state :=
  match f with
  | O => Fuel
  | S f =>
      match p_switch o ts with
      | Some (o1, r) => p_alt f o1 r
      | None => ' (o1, t, n, r) <- p_concat f o ts ;; p_alts f o1 t n r
      end
  end
with p_alts (f : nat) (o : opts) (t : pnode) (n : nat) (ts : list tok) : res state :=
  match f with
  | O => Fuel
  | S f =>
      match ts with
      | TP c :: r => if c =? 124 then ' (o1, u, m, r1) <- p_concat f o r ;; p_alts f o1 (PAlt t u) (n + m + 1) r1 else Ok (o, t, n, ts)
      | _ => Ok (o, t, n, ts)
      end
  end
with p_concat (f : nat) (o : opts) (ts : list tok) : res state :=
  match f with
  | O => Fuel
  | S f => ' (o1, t, n, r) <- p_rep f o ts ;; p_concats f o1 t n r
  end
with p_concats (f : nat) (o : opts) (t : pnode) (n : nat) (ts : list tok) : res state :=
  match f with
  | O => Fuel
  | S f =>
      let more := match p_switch o ts with
                  | Some (o1, r) => p_concats f o1 t n r
                  | None => ' (o1, u, m, r) <- p_rep f o ts ;; p_concats f o1 (PCat t u) (n + m + 1) r
                  end in
      match ts with
      | [] => Ok (o, t, n, ts)
      | TKill :: r => p_concats f o (PLook LOOKBEHIND_POS t) (n + 1) r
      | TP c :: _ => if (c =? 124) || (c =? 41) then Ok (o, t, n, ts) else more
      | _ => more
      end
  end
with p_rep (f : nat) (o : opts) (ts : list tok) : res state :=
  match f with
  | O => Fuel
  | S f =>
      ' (o1, t, n, r) <- p_atom f o ts ;;
      ' q <- p_quant r ;;
      match fst q with
      | None => Ok (o1, t, n, r)
      | Some (mn, mx, m) =>
          match snd q with
          | TP c :: r1 => if c =? 63 then Ok (o1, PRep false t mn mx, (n + m + 1)%nat, r1)
                          else Ok (o1, PRep true t mn mx, (n + m + 1)%nat, snd q)
          | _ => Ok (o1, PRep true t mn mx, (n + m + 1)%nat, snd q)
          end
      end
  end
with p_atom (f : nat) (o : opts) (ts : list tok) : res state :=
  match f with
  | O => Fuel
  | S f =>
      if starts_class ts then
        ' p <- p_class o (S (2 * length ts)) ts ;; Ok (o, cset_node (fst (fst p)), snd (fst p), snd p)
      else
      match ts with
      | [] => Throw
      | k :: r =>
          match simple_atom o k with
          | Some x => ' p <- x ;; Ok (o, fst p, snd p, r)
          | None =>
              match k with
              | TP c =>
                  if negb (c =? 40) then Throw else
                  match r with
                  | TP d :: r1 =>
                      if d =? 63 then
                        match look r1 with
                        | None => Throw
                        | Some (kind, r2) =>
                            ' (o1, t, n, r3) <- p_alt f o r2 ;;
                            match r3 with TP e :: r4 => if e =? 41 then Ok (o1, PLook kind t, (n + 1)%nat, r4) else Throw | _ => Throw end
                        end
                      else
                        ' (o1, t, n, r3) <- p_alt f o r ;;
                        match r3 with TP e :: r4 => if e =? 41 then Ok (o, t, n, r4) else Throw | _ => Throw end
                  | _ =>
                      ' (o1, t, n, r3) <- p_alt f o r ;;
                      match r3 with TP e :: r4 => if e =? 41 then Ok (o, t, n, r4) else Throw | _ => Throw end
                  end
              | _ => Throw
              end
          end
      end
  end.

(** parse, re_grammar.ypp:1501-1527: the tree and the number of nodes, the root included *)
Definition parse (fixed insensitive unicode : bool) (text : list N) : res (pnode * nat) :=
  cps <- transform_utf8_to_unicode text ;;
  let ts := lex (length cps) fixed cps in
  let o := {| cased := negb insensitive; ascii := negb unicode |} in
  ' (o1, t, n, r) <- p_alt (6 * length ts + 6) o ts ;;
  match r with [] => Ok (t, S n) | _ => Throw end.
End Lexer.

(** nodesUpperBound, parsetree.cpp:46-66, and the number of nodes reserved, parsetree.cpp:68-72.
    Both are computed in 32 bits. *)
Fixpoint extra_nodes (prev : N) (text : list N) : N :=
  match text with
  | [] => 0
  | c :: t =>
      ((if (c =? 94) || (c =? 36) then 1 else if ((c =? 66) || (c =? 98)) && (prev =? 92) then 6 else 0) + extra_nodes c t)%N
  end.
Definition nodesUpperBound (text : list N) : N := ((2 * N.of_nat (length text) + extra_nodes 0 text) mod two32)%N.
Definition reserved (text : list N) : N := (2 * nodesUpperBound text mod two32)%N.
