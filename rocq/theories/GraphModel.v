(** Graph with adjacency lists in a VectorFamily: include/vectorfamily.h:28-226,
    include/graph.h:30-416.

    Simplifications:
    - vertex and edge descriptors, uint32_t in the code, are natural numbers: a graph is assumed
      to have fewer than 2^32 - 1 vertices, edges and stored vectors;
    - the payloads of vertices and edges are left out;
    - the lists In and Out of vertex v are elements 2v and 2v+1 of one vector [g_lists];
    - capacities are left out; a copied graph is the same value. *)
From Verif Require Import Base.
Open Scope nat_scope.

(** vectorfamily.h:33-50 *)
Inductive which := ZERO | ONE | MANY.
Record vlist := mkL { l_what : nat; l_which : which }.
Definition l_new : vlist := mkL 0 ZERO.                       (* What is not read while ZERO *)

Definition store := list (list nat).

(** vectorfamily.h:53-62 *)
Definition vf_size (s : store) (l : vlist) : res nat :=
  match l_which l with
  | ZERO => Ok 0
  | ONE => Ok 1
  | MANY => v <- get s (l_what l) ;; Ok (length v)
  end.

(** vectorfamily.h:64-80 *)
Definition vf_add (s : store) (l : vlist) (e : nat) : res (store * vlist) :=
  match l_which l with
  | ZERO => Ok (s, mkL e ONE)
  | ONE => Ok (s ++ [[l_what l; e]], mkL (length s) MANY)
  | MANY => v <- get s (l_what l) ;; s' <- set_at s (l_what l) (v ++ [e]) ;; Ok (s', l)
  end.

(** vectorfamily.h:82-105 *)
Definition vf_insert (s : store) (l : vlist) (i e : nat) : res (store * vlist) :=
  match l_which l with
  | ZERO => Ok (s, mkL e ONE)
  | ONE => Ok (s ++ [if i =? 0 then [e; l_what l] else [l_what l; e]], mkL (length s) MANY)
  | MANY =>
      v <- get s (l_what l) ;;
      let p := if i <? length v then i else length v in
      s' <- set_at s (l_what l) (firstn p v ++ e :: skipn p v) ;; Ok (s', l)
  end.

(** std::find on a vector: the position of the first element equal to [e]. *)
Fixpoint vfind (v : list nat) (e : nat) : option nat :=
  match v with
  | [] => None
  | x :: t => if x =? e then Some 0 else match vfind t e with Some i => Some (S i) | None => None end
  end.

(** vectorfamily.h:107-138 *)
Definition vf_remove (s : store) (l : vlist) (e : nat) : res (store * vlist) :=
  match l_which l with
  | ZERO => Throw
  | ONE => if l_what l =? e then Ok (s, mkL (l_what l) ZERO) else Throw
  | MANY =>
      v <- get s (l_what l) ;;
      match vfind v e with
      | None => Throw
      | Some i =>
          let v' := firstn i v ++ skipn (S i) v in
          match v' with
          | [x] => s' <- set_at s (l_what l) [] ;; Ok (s', mkL x ONE)
          | _ => s' <- set_at s (l_what l) v' ;; Ok (s', l)
          end
      end
  end.

(** vectorfamily.h:140-147 *)
Definition vf_clear (s : store) (l : vlist) : res (store * vlist) :=
  match l_which l with
  | ZERO => Ok (s, l)
  | ONE => Ok (s, mkL (l_what l) ZERO)
  | MANY => s' <- set_at s (l_what l) [] ;; Ok (s', mkL (l_what l) ZERO)
  end.

(** vectorfamily.h:149-164.  With ONE the index is not looked at. *)
Definition vf_at (s : store) (l : vlist) (i : nat) : res nat :=
  match l_which l with
  | ZERO => Throw
  | ONE => Ok (l_what l)
  | MANY => v <- get s (l_what l) ;; get v i
  end.

(** [--*find(l, e)], vectorfamily.h:166-179 and graph.h:397-398: dereferencing the end is
    undefined. *)
Definition vf_dec (s : store) (l : vlist) (e : nat) : res (store * vlist) :=
  match l_which l with
  | ZERO => UB
  | ONE => if l_what l =? e then Ok (s, mkL (l_what l - 1) ONE) else UB
  | MANY =>
      v <- get s (l_what l) ;;
      match vfind v e with
      | None => UB
      | Some i => s' <- set_at s (l_what l) (upd v i (e - 1)) ;; Ok (s', l)
      end
  end.

(** The elements between begin(l) and end(l), vectorfamily.h:181-223.  front() of an empty vector
    is undefined. *)
Definition vf_elements (s : store) (l : vlist) : res (list nat) :=
  match l_which l with
  | ZERO => Ok []
  | ONE => Ok [l_what l]
  | MANY => v <- get s (l_what l) ;; match v with [] => UB | _ => Ok v end
  end.

(** graph.h:59-78: Edges as pairs (Head, Tail). *)
Record graph := mkG { g_lists : list vlist; g_edges : list (nat * nat); g_store : store }.

Definition inl (v : nat) : nat := 2 * v.
Definition outl (v : nat) : nat := 2 * v + 1.

(** Apply an operation of the family to list [k]. *)
Definition on_list (g : graph) (k : nat) (f : store -> vlist -> res (store * vlist)) : res graph :=
  l <- get (g_lists g) k ;;
  ' (s, l') <- f (g_store g) l ;;
  Ok (mkG (upd (g_lists g) k l') (g_edges g) s).

(** graph.h:81 *)
Definition g_new (n : nat) : graph := mkG (repeat l_new (2 * n)) [] [].

(** graph.h:367-373 *)
Definition verticesSize (g : graph) : nat := length (g_lists g) / 2.
Definition edgesSize (g : graph) : nat := length (g_edges g).

(** graph.h:326-329 *)
Definition addVertex (g : graph) : graph := mkG (g_lists g ++ [l_new; l_new]) (g_edges g) (g_store g).

(** graph.h:341-347 *)
Definition addEdge (g : graph) (head tail : nat) : res graph :=
  let ed := length (g_edges g) in
  let g0 := mkG (g_lists g) (g_edges g ++ [(head, tail)]) (g_store g) in
  g1 <- on_list g0 (outl head) (fun s l => vf_add s l ed) ;;
  on_list g1 (inl tail) (fun s l => vf_add s l ed).

(** graph.h:349-355 *)
Definition insertEdge (g : graph) (head tail hi ti : nat) : res graph :=
  let ed := length (g_edges g) in
  let g0 := mkG (g_lists g) (g_edges g ++ [(head, tail)]) (g_store g) in
  g1 <- on_list g0 (outl head) (fun s l => vf_insert s l hi ed) ;;
  on_list g1 (inl tail) (fun s l => vf_insert s l ti ed).

(** graph.h:395-399: the edges from position [i] on. *)
Fixpoint renumber (es : list (nat * nat)) (i : nat) (g : graph) : res graph :=
  match es with
  | [] => Ok g
  | (h, t) :: r =>
      g1 <- on_list g (outl h) (fun s l => vf_dec s l (i + 1)) ;;
      g2 <- on_list g1 (inl t) (fun s l => vf_dec s l (i + 1)) ;;
      renumber r (i + 1) g2
  end.

(** graph.h:392-400 *)
Definition compact_after_edge (g : graph) (ed : nat) : res graph :=
  let es := firstn ed (g_edges g) ++ skipn (S ed) (g_edges g) in
  renumber (skipn ed es) ed (mkG (g_lists g) es (g_store g)).

(** graph.h:357-361 *)
Definition removeEdge (g : graph) (ed : nat) : res graph :=
  ' (h, t) <- get (g_edges g) ed ;;
  g1 <- on_list g (outl h) (fun s l => vf_remove s l ed) ;;
  g2 <- on_list g1 (inl t) (fun s l => vf_remove s l ed) ;;
  compact_after_edge g2 ed.

(** graph.h:311-319 *)
Fixpoint clear_lists (ls : list vlist) (s : store) : res (list vlist * store) :=
  match ls with
  | [] => Ok ([], s)
  | l :: r => ' (s1, l1) <- vf_clear s l ;; ' (r2, s2) <- clear_lists r s1 ;; Ok (l1 :: r2, s2)
  end.
Definition clearEdges (g : graph) : res graph :=
  ' (ls, s) <- clear_lists (g_lists g) (g_store g) ;; Ok (mkG ls [] s).

(** graph.h:307-309, 321-324; the store is kept. *)
Definition clearVertices (g : graph) : graph := mkG [] [] (g_store g).

(** graph.h:402-415 *)
Definition down (vd x : nat) : nat := if vd <? x then x - 1 else x.
Definition compact_after_vertex (g : graph) (vd : nat) : graph :=
  mkG (firstn (2 * vd) (g_lists g) ++ skipn (2 * vd + 2) (g_lists g))
      (map (fun p => (down vd (fst p), down vd (snd p))) (g_edges g)) (g_store g).

(** std::for_each in removeVertex, graph.h:335-336, when begin and end point into vector [w] of the
    store: positions [j], j+1, ... [n] of them.  The vector is changed by removeEdge meanwhile;
    reading at or after its current end is undefined. *)
Fixpoint for_each_many (g : graph) (w j n : nat) : res graph :=
  match n with
  | O => Ok g
  | S k => v <- get (g_store g) w ;; e <- get v j ;; g' <- removeEdge g e ;; for_each_many g' w (S j) k
  end.

Definition for_each_remove (g : graph) (k : nat) : res graph :=
  l <- get (g_lists g) k ;;
  match l_which l with
  | ZERO => Ok g
  | ONE => removeEdge g (l_what l)
  | MANY => v <- get (g_store g) (l_what l) ;; for_each_many g (l_what l) 0 (length v)
  end.

(** graph.h:331-339 *)
Definition removeVertex (g : graph) (vd : nat) : res graph :=
  g1 <- for_each_remove g (inl vd) ;;
  g2 <- for_each_remove g1 (outl vd) ;;
  Ok (compact_after_vertex g2 vd).

(** graph.h:104-126 *)
Definition elements (g : graph) (k : nat) : res (list nat) :=
  l <- get (g_lists g) k ;; vf_elements (g_store g) l.
Definition degree (g : graph) (k : nat) : res nat :=
  l <- get (g_lists g) k ;; vf_size (g_store g) l.
Definition edge_at (g : graph) (k i : nat) : res nat :=
  l <- get (g_lists g) k ;; vf_at (g_store g) l i.
Definition outDegree g v := degree g (outl v).
Definition inDegree g v := degree g (inl v).
Definition outEdge g v i := edge_at g (outl v) i.
Definition inEdge g v i := edge_at g (inl v) i.
Definition outVertex g v i : res nat := e <- outEdge g v i ;; ' (_, t) <- get (g_edges g) e ;; Ok t.
Definition inVertex g v i : res nat := e <- inEdge g v i ;; ' (h, _) <- get (g_edges g) e ;; Ok h.

(** outVertices and inVertices, graph.h:194-196, 227-233: the vertices iterated over. *)
Fixpoint map_get {A B} (f : A -> B) (l : list A) (is : list nat) : res (list B) :=
  match is with [] => Ok [] | i :: r => x <- get l i ;; m <- map_get f l r ;; Ok (f x :: m) end.
Definition outVertices g v : res (list nat) := es <- elements g (outl v) ;; map_get snd (g_edges g) es.
Definition inVertices g v : res (list nat) := es <- elements g (inl v) ;; map_get fst (g_edges g) es.

Inductive gop :=
| GVertex
| GEdge (head tail : nat)
| GInsert (head tail hi ti : nat)
| GRemoveEdge (ed : nat)
| GClearEdges
| GClear.

Definition gstep (g : graph) (o : gop) : res graph :=
  match o with
  | GVertex => Ok (addVertex g)
  | GEdge h t => addEdge g h t
  | GInsert h t hi ti => insertEdge g h t hi ti
  | GRemoveEdge ed => removeEdge g ed
  | GClearEdges => clearEdges g
  | GClear => Ok (clearVertices g)
  end.

Fixpoint grun (g : graph) (os : list gop) : res graph :=
  match os with [] => Ok g | o :: r => g' <- gstep g o ;; grun g' r end.
