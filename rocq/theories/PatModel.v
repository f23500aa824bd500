(** Parse trees of patterns and the rewrites applied to them before an automaton is built:
    /repo/include/parsenode.h, /repo/src/lib/rewriter.cpp, /repo/src/lib/parser.cpp.

    A tree of [ParseNode]s linked by pointers becomes an inductive tree; the node a parent points at
    after a rewrite (spliceOutParent, rewriter.cpp:71-81) is the result of the function.  The root
    node REGEXP with its possibly null child is an [option].  The stack of ancestors [branch] is only
    used to find the parent, so it is not modelled. *)
From Coq Require Import List NArith ZArith Bool.
From Verif Require Import Base RangeSetModel ByteSetModel.
Import ListNotations.
Open Scope N_scope.

(** parsenode.h:27 *)
Definition UNBOUNDED : N := 4294967295.

(** parsenode.h:40-43 and 61-73: the leaves.  DOT always carries the value '.' (re_grammar.ypp:449). *)
Inductive atom :=
| ADot
| AClass (cps : rset) (bytes : bset) (additive : bool)
| ALit (cp : Z)
| AByte (b : N).

(** parsenode.h:30-45.  [PRep greedy t min max] is REPETITION or REPETITION_NG.  [PLook] stands for
    the four look-around types.  TEMPORARY nodes never reach the tree. *)
Inductive pnode :=
| PLook (kind : N) (t : pnode)
| PAlt (l r : pnode)
| PCat (l r : pnode)
| PRep (greedy : bool) (t : pnode) (min max : N)
| PAtom (a : atom).

Lemma atom_eq_dec (x y : atom) : {x = y} + {x <> y}.
Proof. decide equality; try apply Z.eq_dec; try apply N.eq_dec; try apply bool_dec; try (apply list_eq_dec, N.eq_dec). Defined.

Lemma pnode_eq_dec (x y : pnode) : {x = y} + {x <> y}.
Proof. decide equality; try apply N.eq_dec; try apply bool_dec; apply atom_eq_dec. Defined.

(** parsenode.h:286-323, operator== *)
Definition node_eqb (x y : pnode) : bool := if pnode_eq_dec x y then true else false.

(** rewriter.cpp:83-108 *)
Fixpoint hasZeroLengthMatch (n : pnode) : bool :=
  match n with
  | PLook _ _ => false
  | PAlt l r => hasZeroLengthMatch l || hasZeroLengthMatch r
  | PCat l r => hasZeroLengthMatch l && hasZeroLengthMatch r
  | PRep _ t mn _ => (mn =? 0) || hasZeroLengthMatch t
  | PAtom _ => false
  end.

(** rewriter.cpp:141-169 *)
Fixpoint has_only_zero_length_match (n : pnode) : bool :=
  match n with
  | PLook _ _ => false
  | PAlt l _ => has_only_zero_length_match l
  | PCat l r => has_only_zero_length_match l && has_only_zero_length_match r
  | PRep _ t mn mx => ((mn =? 0) && (mx =? 0)) || has_only_zero_length_match t
  | PAtom _ => false
  end.

(** rewriter.cpp:192-199: the dummy that replaces an empty subtree *)
Definition dummy : pnode := PRep true (PAtom (ALit 120)) 0 0.

(** rewriter.cpp:171-258; the returned flag is not used (parser.cpp:58). *)
Fixpoint reduceEmptySubtrees (n : pnode) : pnode :=
  if has_only_zero_length_match n then dummy
  else
    match n with
    | PLook _ _ => n
    | PAtom _ => n
    | PRep g t mn mx => PRep g (reduceEmptySubtrees t) mn mx
    | PCat l r =>
        let l' := reduceEmptySubtrees l in
        let r' := reduceEmptySubtrees r in
        if has_only_zero_length_match l' then r'
        else if has_only_zero_length_match r' then l'
        else PCat l' r'
    | PAlt l r =>
        let l' := reduceEmptySubtrees l in
        let r' := reduceEmptySubtrees r in
        if has_only_zero_length_match r' then PRep true l' 0 1 else PAlt l' r'
    end.

(** rewriter.cpp:180-185, 260-263: at the root *)
Definition reduceEmptySubtrees_root (o : option pnode) : option pnode :=
  match o with
  | None => None
  | Some t => if has_only_zero_length_match t then None else Some (reduceEmptySubtrees t)
  end.

(** rewriter.cpp:265-290 and 292-333: prune_useless_repetitions on a child followed by
    reduceUselessRepetitions on what the parent then points at; the flag is not used (parser.cpp:59). *)
Fixpoint reduceUselessRepetitions (n : pnode) : pnode :=
  match n with
  | PLook _ _ => n
  | PAtom _ => n
  | PAlt l r => PAlt (reduceUselessRepetitions l) (reduceUselessRepetitions r)
  | PCat l r => PCat (reduceUselessRepetitions l) (reduceUselessRepetitions r)
  | PRep g t mn mx =>
      if (mn =? 1) && (mx =? 1) then reduceUselessRepetitions t
      else if negb g && (mn =? mx) then PRep true (reduceUselessRepetitions t) mn mx
      else PRep g (reduceUselessRepetitions t) mn mx
  end.

(** rewriter.cpp:340-346 *)
Definition combinable (x y : pnode) : bool :=
  match x, y with
  | PRep g _ _ _, PRep g' _ _ _ => Bool.eqb g g' && node_eqb x y
  | _, _ => false
  end.

(** rewriter.cpp:376-379, 389-392: the sums of two bounds *)
Definition add_min (a c : N) : N := (a + c) mod two32.
Definition add_max (b d : N) : N := if (b =? UNBOUNDED) || (d =? UNBOUNDED) then UNBOUNDED else (b + d) mod two32.

Definition join_rep (x y : pnode) : pnode :=
  match x, y with
  | PRep g t a b, PRep _ _ c d => PRep g t (add_min a c) (add_max b d)
  | _, _ => x
  end.

(** rewriter.cpp:348-413 *)
Fixpoint combineConsecutiveRepetitions (n : pnode) : pnode * bool :=
  match n with
  | PLook _ _ => (n, false)
  | PAtom _ => (n, false)
  | PRep g t mn mx => let '(t', b) := combineConsecutiveRepetitions t in (PRep g t' mn mx, b)
  | PAlt l r =>
      let '(l', b1) := combineConsecutiveRepetitions l in
      let '(r', b2) := combineConsecutiveRepetitions r in
      (PAlt l' r', b1 || b2)
  | PCat l r =>
      let '(l', b1) := combineConsecutiveRepetitions l in
      let '(r', b2) := combineConsecutiveRepetitions r in
      if combinable l' r' then (join_rep l' r', true)
      else
        match r' with
        | PCat rl rr => if combinable l' rl then (PCat (join_rep l' rl) rr, true) else (PCat l' r', b1 || b2)
        | _ => (PCat l' r', b1 || b2)
        end
  end.

(** rewriter.cpp:420-488: one rotation at each node, after the children *)
Fixpoint makeBinopsRightAssociative (n : pnode) : pnode * bool :=
  match n with
  | PLook k t => let '(t', b) := makeBinopsRightAssociative t in (PLook k t', b)
  | PAtom _ => (n, false)
  | PRep g t mn mx => let '(t', b) := makeBinopsRightAssociative t in (PRep g t' mn mx, b)
  | PAlt l r =>
      let '(l', b1) := makeBinopsRightAssociative l in
      let '(r', b2) := makeBinopsRightAssociative r in
      match l' with
      | PAlt e f => (PAlt e (PAlt f r'), true)
      | _ => (PAlt l' r', b1 || b2)
      end
  | PCat l r =>
      let '(l', b1) := makeBinopsRightAssociative l in
      let '(r', b2) := makeBinopsRightAssociative r in
      match l' with
      | PCat e f => (PCat e (PCat f r'), true)
      | _ => (PCat l' r', b1 || b2)
      end
  end.

(** rewriter.cpp:495-575 *)
Fixpoint reduceTrailingNongreedyThenGreedy (n : pnode) : pnode * bool :=
  match n with
  | PLook k t => let '(t', b) := reduceTrailingNongreedyThenGreedy t in (PLook k t', b)
  | PAtom _ => (n, false)
  | PRep g t mn mx => let '(t', b) := reduceTrailingNongreedyThenGreedy t in (PRep g t' mn mx, b)
  | PAlt l r =>
      let '(l', b1) := reduceTrailingNongreedyThenGreedy l in
      let '(r', b2) := reduceTrailingNongreedyThenGreedy r in
      (PAlt l' r', b1 || b2)
  | PCat l r =>
      let '(r', b2) := reduceTrailingNongreedyThenGreedy r in
      match l with
      | PRep false t a _ =>
          match r' with
          | PRep true t2 c d =>
              if node_eqb t t2 then
                (PRep true (fst (reduceTrailingNongreedyThenGreedy t)) (add_min a c)
                      (if d =? UNBOUNDED then UNBOUNDED else (a + d) mod two32), true)
              else if node_eqb t r' then
                (PRep true (fst (reduceTrailingNongreedyThenGreedy t)) (add_min a 1) ((a + 1) mod two32), true)
              else (PCat l r', b2)
          | _ =>
              if node_eqb t r' then
                (PRep true (fst (reduceTrailingNongreedyThenGreedy t)) (add_min a 1) ((a + 1) mod two32), true)
              else (PCat l r', b2)
          end
      | _ => (PCat l r', b2)
      end
  end.

(** rewriter.cpp:582-670 *)
Fixpoint reduceTrailingNongreedyThenEmpty (n : pnode) : pnode * bool :=
  match n with
  | PLook k t => let '(t', b) := reduceTrailingNongreedyThenEmpty t in (PLook k t', b)
  | PAtom _ => (n, false)
  | PRep true t mn mx => let '(t', b) := reduceTrailingNongreedyThenEmpty t in (PRep true t' mn mx, b)
  | PRep false t mn mx => (PRep true (fst (reduceTrailingNongreedyThenEmpty t)) mn mn, true)
  | PAlt l r =>
      let '(l', b1) := reduceTrailingNongreedyThenEmpty l in
      let '(r', b2) := reduceTrailingNongreedyThenEmpty r in
      (PAlt l' r', b1 || b2)
  | PCat l r =>
      let '(l', b1) :=
        if hasZeroLengthMatch r then
          match l with
          | PRep false t a _ => (PRep true t a a, true)
          | _ => reduceTrailingNongreedyThenEmpty l
          end
        else (l, false) in
      let '(r', b2) := reduceTrailingNongreedyThenEmpty r in
      (PCat l' r', b1 || b2)
  end.

(** Whether the tree has a look-around node.  combineConsecutiveRepetitions visits every node and
    throws std::logic_error there (rewriter.cpp:406-408). *)
Fixpoint has_look (n : pnode) : bool :=
  match n with
  | PLook _ _ => true
  | PAlt l r | PCat l r => has_look l || has_look r
  | PRep _ t _ _ => has_look t
  | PAtom _ => false
  end.

(** parser.cpp:25-29; the text is a list of bytes, 63 is '?' *)
Definition containsPossibleNongreedy (text : list N) : bool := existsb (N.eqb 63) (skipn 2 text).

(** parser.cpp:31-36; 123 is '{'.  For texts shorter than three bytes length()-3 wraps and the whole
    text is looked at. *)
Definition containsPossibleCountedRepetition (text : list N) : bool :=
  existsb (N.eqb 123) (skipn 1 (if (length text <? 3)%nat then text else firstn (length text - 2) text)).

(** parser.cpp:47-61 *)
Definition reduce (text : list N) (root : option pnode) : res (option pnode) :=
  match root with
  | None => Ok None
  | Some t0 =>
      let '(t1, b1) := makeBinopsRightAssociative t0 in
      if has_look t1 then Throw
      else
        let '(t2, b2) := combineConsecutiveRepetitions t1 in
        let '(t4, b4) :=
          if containsPossibleNongreedy text then
            let '(t3, b3) := reduceTrailingNongreedyThenEmpty t2 in
            let '(t4, b4) := reduceTrailingNongreedyThenGreedy t3 in
            (t4, b3 || b4)
          else (t2, false) in
        if (b1 || b2 || b4) || containsPossibleCountedRepetition text then
          Ok (match reduceEmptySubtrees_root (Some t4) with
              | None => None
              | Some t5 => Some (reduceUselessRepetitions t5)
              end)
        else Ok (Some t4)
  end.
