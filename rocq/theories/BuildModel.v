(** Building the automaton of one pattern: /repo/src/lib/nfabuilder.cpp, /repo/include/fragment.h,
    /repo/src/lib/fsmthingy.cpp.

    Simplifications:
    - the explicit stacks of traverse (nfabuilder.cpp:462-603) visit the tree in postorder, left
      subtree first, with counted repetitions replaced by trees of concatenations, ?, and +; here
      this is a recursive function that returns the fragment the callbacks would push;
    - NOSKIP (2^32-1) is [None]: lists of vertices are taken to be shorter than 2^32-1;
    - the parse node kept in a fragment (Fragment::N) and the flag Deterministic are left out
      (Deterministic only decides whether determinization is tried);
    - the graph is the one of NfaModel.v: lists of successors and predecessors (see C38). *)
From Verif Require Import Base NfaModel RangeSetModel ByteSetModel PatModel.
Open Scope nat_scope.

(** What the builder uses of an encoder: write(cp, buf), validCodePoints() and write(uset, vo). *)
Record enc_if := mkEnc {
  e_write : Z -> list N;
  e_valid : rset;
  e_write_set : rset -> res (list (list bset))
}.

(** fragment.h:26-89: entry vertices; exit vertices, each with the position in its list of
    successors at which what follows the fragment is to be inserted; and the position in the list
    of entries at which the fragment can be skipped, if it can be. *)
Record frag := mkF { f_in : list nat; f_out : list (nat * nat); f_skip : option nat }.

(** fragment.h:67-79 (initFull) *)
Definition full (v : nat) : frag := mkF [v] [(v, 0)] None.

(** graph.h addVertex followed by the assignment of Trans: the new vertex is [length g]. *)
Definition addVertex (g : nfa) (t : trans) : nfa := g ++ [mkV (Some t) false 4294967295 [] []].

Definition set_out (x : vertex) (l : list nat) : vertex := mkV x.(v_trans) x.(v_match) x.(v_label) l x.(v_in).
Definition set_in (x : vertex) (l : list nat) : vertex := mkV x.(v_trans) x.(v_match) x.(v_label) x.(v_out) l.

(** graph.h insertEdge(source, target, pos): the target goes to position [pos] of the source's
    successors, the source to the end of the target's predecessors. *)
Definition insertEdge (g : nfa) (h t pos : nat) : res nfa :=
  x <- get g h ;;
  if pos <=? length x.(v_out) then
    let g1 := upd g h (set_out x (firstn pos x.(v_out) ++ t :: skipn pos x.(v_out))) in
    y <- get g1 t ;;
    Ok (upd g1 t (set_in y (y.(v_in) ++ [h])))
  else UB.

(** graph.h addEdge: at the end of the source's successors. *)
Definition addEdge (g : nfa) (h t : nat) : res nfa := x <- get g h ;; insertEdge g h t (length x.(v_out)).

(** nfabuilder.cpp:118-127: the two loops over [dst], with the position running through both. *)
Fixpoint insertEdges (g : nfa) (v : nat) (dst : list nat) (pos : nat) : res nfa :=
  match dst with
  | [] => Ok g
  | d :: r => g1 <- insertEdge g v d pos ;; insertEdges g1 v r (S pos)
  end.

(** nfabuilder.cpp:105-134; the new insertion point is behind the edges before [skip_stop]. *)
Fixpoint patch_mid (g : nfa) (src : list (nat * nat)) (dst : list nat) (dstskip : option nat) : res (nfa * list (nat * nat)) :=
  match src with
  | [] => Ok (g, [])
  | (v, pos) :: r =>
      g1 <- insertEdges g v dst pos ;;
      let stop := match dstskip with Some s => Nat.min s (length dst) | None => length dst end in
      ' (g2, r') <- patch_mid g1 r dst dstskip ;;
      Ok (g2, (v, pos + stop) :: r')
  end.

(** nfabuilder.cpp:136-144 *)
Definition patch_pre (g : nfa) (src : list (nat * nat)) (dst : list nat) := patch_mid g src dst (Some (length dst)).
Definition patch_post (g : nfa) (src : list (nat * nat)) (dst : list nat) := patch_mid g src dst (Some 0).

(** nfabuilder.cpp:156-164: the remaining bytes of a literal behind vertex [prev] *)
Fixpoint lit_chain (g : nfa) (prev : nat) (bs : list N) : res (nfa * nat) :=
  match bs with
  | [] => Ok (g, prev)
  | b :: r =>
      let last := length g in
      g1 <- addEdge (addVertex g (TByte b)) prev last ;;
      lit_chain g1 last r
  end.

(** nfabuilder.cpp:146-169 *)
Definition literal (g : nfa) (bs : list N) : res (nfa * frag) :=
  match bs with
  | [] => Throw
  | b :: r =>
      let first := length g in
      ' (g1, last) <- lit_chain (addVertex g (TByte b)) first r ;;
      Ok (g1, mkF [first] [(last, 0)] None)
  end.

(** nfabuilder.cpp:171-176 *)
Definition rawByte (g : nfa) (b : N) : res (nfa * frag) := Ok (addVertex g (TByte b), full (length g)).

(** The bytes of a vertex, Trans->getBytes(bs); a null Trans is dereferenced. *)
Definition bytes_at (g : nfa) (v : nat) : res N :=
  x <- get g v ;; match x.(v_trans) with Some t => Ok (bytes_of t) | None => UB end.

(** nfabuilder.cpp:240-246 and 255-262: the first of the vertices whose bytes are [s] *)
Fixpoint find_bytes (g : nfa) (vs : list nat) (s : N) : res (option nat) :=
  match vs with
  | [] => Ok None
  | v :: r => b <- bytes_at g v ;; if (b =? s)%N then Ok (Some v) else find_bytes g r s
  end.

(** nfabuilder.cpp:252-269: walking back from [tail] over the byte sets [rs], last first; what is
    left of them. *)
Fixpoint walk_back (g : nfa) (tail : nat) (rs : list N) : res (nat * list N) :=
  match rs with
  | [] => Ok (tail, [])
  | s :: r =>
      x <- get g tail ;;
      o <- find_bytes g x.(v_in) s ;;
      match o with
      | None => Ok (tail, rs)
      | Some O => Ok (0, rs)
      | Some h => walk_back g h r
      end
  end.

(** nfabuilder.cpp:282-287 *)
Fixpoint build_back (g : nfa) (tail : nat) (rs : list N) : res (nfa * nat) :=
  match rs with
  | [] => Ok (g, tail)
  | s :: r =>
      let head := length g in
      g1 <- addEdge (addVertex g (getSmallest s)) head tail ;;
      build_back g1 head r
  end.

(** nfabuilder.cpp:228-290: one sequence of byte sets; [rs] has the last one first. *)
Definition add_row (g : nfa) (f : frag) (rs : list N) : res (nfa * frag) :=
  match rs with
  | [] => UB
  | s :: r =>
      o <- find_bytes g (map fst f.(f_out)) s ;;
      match o with
      | Some tail0 =>
          ' (tail, r') <- walk_back g tail0 r ;;
          ' (g1, tail1) <- build_back g tail r' ;;
          Ok (g1, mkF (f.(f_in) ++ [tail1]) f.(f_out) f.(f_skip))
      | None =>
          let tail := length g in
          ' (g1, tail1) <- build_back (addVertex g (getSmallest s)) tail r ;;
          Ok (g1, mkF (f.(f_in) ++ [tail1]) (f.(f_out) ++ [(tail, 0)]) f.(f_skip))
      end
  end.

Fixpoint add_rows (g : nfa) (f : frag) (rows : list (list bset)) : res (nfa * frag) :=
  match rows with
  | [] => Ok (g, f)
  | row :: r => ' (g1, f1) <- add_row g f (rev (map bs_num row)) ;; add_rows g1 f1 r
  end.

Definition bs_any (s : bset) : bool := negb (forallb (fun b => (b =? 0)%N) s).

(** nfabuilder.cpp:202-226: breakout bytes *)
Definition breakout (rows : list (list bset)) (bytes : bset) (additive : bool) : res (list (list bset)) :=
  if bs_any bytes then
    match rows with
    | [] => UB
    | row0 :: rest =>
        match row0 with
        | [s] =>
            if additive then Ok ([bs_or s bytes] :: rest)
            else
              let s' := bs_sub s bytes in
              if bs_any s' then Ok ([s'] :: rest)
              else match rest with [] => Throw | _ => Ok rest end
        | _ => if additive then Ok (rows ++ [[bytes]]) else Ok rows
        end
    end
  else Ok rows.

Section Builder.
Variable enc : enc_if.

(** nfabuilder.cpp:182-300 *)
Definition charClass (g : nfa) (cps : rset) (bytes : bset) (additive : bool) : res (nfa * frag) :=
  uset <- rs_and 1114112 cps enc.(e_valid) ;;
  if negb (rs_any uset) then
    if negb additive || negb (bs_any bytes) then Throw
    else Ok (addVertex g (getSmallest (bs_num bytes)), full (length g))
  else
    rows <- enc.(e_write_set) uset ;;
    rows' <- breakout rows bytes additive ;;
    add_rows g (mkF [] [] None) rows'.

Definition build_atom (g : nfa) (a : atom) : res (nfa * frag) :=
  match a with
  | ADot => charClass g [0; 1114112]%N bs_empty true       (* nfabuilder.cpp:178-180 *)
  | AClass cps bytes additive => charClass g cps bytes additive
  | ALit cp => literal g (enc.(e_write) cp)
  | AByte b => rawByte g b
  end.

(** nfabuilder.cpp:302-312 *)
Definition question (f : frag) : frag :=
  mkF f.(f_in) f.(f_out)
    (match f.(f_skip) with
     | Some s => if length f.(f_in) <? s then Some (length f.(f_in)) else Some s
     | None => Some (length f.(f_in))
     end).
Definition question_ng (f : frag) : frag := mkF f.(f_in) f.(f_out) (Some 0).

(** nfabuilder.cpp:314-328 *)
Definition plus (g : nfa) (f : frag) (greedy : bool) : res (nfa * frag) :=
  ' (g1, out) <- (if greedy then patch_pre g f.(f_out) f.(f_in) else patch_post g f.(f_out) f.(f_in)) ;;
  Ok (g1, mkF f.(f_in) out f.(f_skip)).

(** nfabuilder.cpp:378-401 *)
Definition alternate (f1 f2 : frag) : frag :=
  mkF (f1.(f_in) ++ f2.(f_in)) (f1.(f_out) ++ f2.(f_out))
    (match f1.(f_skip), f2.(f_skip) with
     | Some s, _ => Some s
     | None, Some s => Some (length f1.(f_in) + s)
     | None, None => None
     end).

(** nfabuilder.cpp:403-431 *)
Definition concatenate (g : nfa) (f1 f2 : frag) : res (nfa * frag) :=
  ' (g1, out1) <- patch_mid g f1.(f_out) f2.(f_in) f2.(f_skip) ;;
  Ok (g1,
    mkF (match f1.(f_skip) with
         | Some s => firstn s f1.(f_in) ++ f2.(f_in) ++ skipn s f1.(f_in)
         | None => f1.(f_in)
         end)
        (match f2.(f_skip) with Some _ => out1 ++ f2.(f_out) | None => f2.(f_out) end)
        (match f1.(f_skip), f2.(f_skip) with Some a, Some b => Some (a + b) | _, _ => None end)).

Definition optional_frag (greedy : bool) (f : frag) : frag := if greedy then question f else question_ng f.

(** nfabuilder.cpp:507-527, 545-556: [k] copies of T before [last] *)
Fixpoint copies (bt : nfa -> res (nfa * frag)) (k : nat) (last : nfa -> res (nfa * frag)) (g : nfa) : res (nfa * frag) :=
  match k with
  | O => last g
  | S m =>
      ' (g1, f1) <- bt g ;;
      ' (g2, f2) <- copies bt m last g1 ;;
      concatenate g2 f1 f2
  end.

(** nfabuilder.cpp:558-578: (T(T(T)?)?)? with [k+1] copies of T *)
Fixpoint options (bt : nfa -> res (nfa * frag)) (greedy : bool) (k : nat) (g : nfa) : res (nfa * frag) :=
  match k with
  | O => ' (g1, f1) <- bt g ;; Ok (g1, optional_frag greedy f1)
  | S m =>
      ' (g1, f1) <- bt g ;;
      ' (g2, f2) <- options bt greedy m g1 ;;
      ' (g3, f3) <- concatenate g2 f1 f2 ;;
      Ok (g3, optional_frag greedy f3)
  end.

(** nfabuilder.cpp:462-603 with callback, 610-640, and repetition, 340-376.  A look-around node
    pushes nothing, so that its parent would find too few fragments; the parser never passes one
    (see lookaround_refused). *)
Fixpoint build_tree (t : pnode) (g : nfa) : res (nfa * frag) :=
  match t with
  | PLook _ _ => UB
  | PAtom a => build_atom g a
  | PAlt l r =>
      ' (g1, f1) <- build_tree l g ;;
      ' (g2, f2) <- build_tree r g1 ;;
      Ok (g2, alternate f1 f2)
  | PCat l r =>
      ' (g1, f1) <- build_tree l g ;;
      ' (g2, f2) <- build_tree r g1 ;;
      concatenate g2 f1 f2
  | PRep greedy t mn mx =>
      let bt := build_tree t in
      let bplus := fun g => ' (g1, f1) <- bt g ;; plus g1 f1 greedy in
      if ((mn =? 0) && (mx =? 1))%N then ' (g1, f1) <- bt g ;; Ok (g1, optional_frag greedy f1)
      else if ((mn =? 0) && (mx =? UNBOUNDED))%N then ' (g1, f1) <- bplus g ;; Ok (g1, optional_frag greedy f1)
      else if ((mn =? 1) && (mx =? UNBOUNDED))%N then bplus g
      else if (mn =? mx)%N then copies bt (N.to_nat mn - 1) bt g
      else if (mx =? UNBOUNDED)%N then copies bt (N.to_nat mn - 1) bplus g
      else copies bt (N.to_nat mn) (options bt greedy (N.to_nat ((mx + two32 - mn) mod two32) - 1)) g
  end.

(** nfabuilder.cpp:443-448: marking the exits *)
Fixpoint mark (g : nfa) (label : N) (out : list (nat * nat)) : res nfa :=
  match out with
  | [] => Ok g
  | (v, _) :: r =>
      x <- get g v ;;
      mark (upd g v (mkV x.(v_trans) true label x.(v_out) x.(v_in))) label r
  end.

(** nfabuilder.cpp:72-94 (reset, init), 433-460 (finish), 605-608 (build): [None] is failure.  A tree
    without a node below the root leaves one fragment on the stack. *)
Definition build (label : N) (tree : option pnode) : res (option nfa) :=
  match tree with
  | None => Ok None
  | Some t =>
      ' (g1, f) <- build_tree t [v_new] ;;
      ' (g2, f2) <- concatenate g1 (full 0) f ;;
      if existsb (fun p => fst p =? 0) f2.(f_out) then Ok None
      else g3 <- mark g2 label f2.(f_out) ;; Ok (Some g3)
  end.
End Builder.
