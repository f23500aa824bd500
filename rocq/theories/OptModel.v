(** Combining the automata of the patterns: /repo/src/lib/nfaoptimizer.cpp and
    /repo/src/lib/fsmthingy.cpp.

    Simplifications:
    - std::map and std::set become functions or lists of what they hold; where the code walks a map
      its order is reproduced;
    - removing an edge removes, from the predecessors of its end, the first occurrence of its
      beginning (graph.h removes the edge's own entry; they differ only in the order of the list of
      predecessors, and only if there are parallel edges);
    - the loops with a stack take a bound on the number of turns and give [Fuel] if it is reached;
    - mergeIntoFSM reads the top of the stack through a reference after popping it
      (nfaoptimizer.cpp:181-185); the value read here is the one before;
    - the flag Deterministic of a graph, which only decides whether finalizeGraph calls subsetDFA, is
      a parameter. *)
From Verif Require Import Base NfaModel VmModel ByteSetModel BuildModel PatModel.
Open Scope nat_scope.

(** * pruneBranches *)

(** graph.h removeEdge of the edge at position [i] of the successors of [h] *)
Fixpoint remove1 (v : nat) (l : list nat) : list nat :=
  match l with
  | [] => []
  | x :: r => if x =? v then r else x :: remove1 v r
  end.

Definition removeEdge (g : nfa) (h i : nat) : res nfa :=
  x <- get g h ;;
  t <- get x.(v_out) i ;;
  let g1 := upd g h (set_out x (firstn i x.(v_out) ++ skipn (S i) x.(v_out))) in
  y <- get g1 t ;;
  Ok (upd g1 t (set_in y (remove1 h y.(v_in)))).

Definition memb (v : nat) (l : list nat) : bool := existsb (Nat.eqb v) l.

(** nfaoptimizer.cpp:229-259; [todo] is what is left of the successors of [head], from position [i] *)
Fixpoint prune_out (g : nfa) (head : nat) (mbs : N) (i : nat) (todo next seen : list nat) : res (nfa * list nat * list nat) :=
  match todo with
  | [] => Ok (g, next, seen)
  | tail :: r =>
      let new := negb (memb tail seen) in
      let next1 := if new then tail :: next else next in
      let seen1 := if new then tail :: seen else seen in
      b <- bytes_at g tail ;;
      let obs := N.ldiff b mbs in
      ' (g1, i1) <- (if (obs =? 0)%N then g1 <- removeEdge g head i ;; Ok (g1, i) else Ok (g, S i)) ;;
      x <- get g1 tail ;;
      prune_out g1 head (if x.(v_match) then N.lor mbs obs else mbs) i1 r next1 seen1
  end.

(** nfaoptimizer.cpp:210-261 *)
Fixpoint prune_loop (fuel : nat) (g : nfa) (next seen : list nat) : res nfa :=
  match next with
  | [] => Ok g
  | head :: rest =>
      match fuel with
      | O => Fuel
      | S k =>
          x <- get g head ;;
          ' (g1, next1, seen1) <- prune_out g head 0 0 x.(v_out) rest seen ;;
          prune_loop k g1 next1 seen1
      end
  end.

Definition pruneBranches (fuel : nat) (g : nfa) : res nfa := prune_loop fuel g [0] [0].

(** * mergeIntoFSM *)

Record merge := mkM {
  m_dst : nfa;
  m_s2d : list (option nat);          (* Src2Dst *)
  m_d2s : nat -> list nat;            (* Dst2Src; no entry is [] *)
  m_pos : nat -> option nat;          (* DstPos *)
  m_vis : list (nat * nat)            (* Visited *)
}.

Definition fupd {A} (f : nat -> A) (k : nat) (a : A) : nat -> A := fun x => if x =? k then a else f x.

(** nfaoptimizer.cpp:31-71 *)
Definition canMerge (dst : nfa) (d2s : nat -> list nat) (dt : nat) (src : nfa) (st : nat) (sbits : N) : res bool :=
  x <- get dst dt ;;
  y <- get src st ;;
  if (v_label x =? v_label y)%N &&
     ((v_label x =? NOLABEL)%N || ((length (v_out y) =? 0) && (length (v_out x) =? 0))) &&
     (length (v_in x) =? 1) && (length (v_in y) =? 1)
  then
    match d2s dt with
    | [] => b <- bytes_at dst dt ;; Ok (b =? sbits)%N
    | s0 :: _ =>
        z <- get src s0 ;;
        if length (v_in z) =? 1 then b <- bytes_at dst dt ;; Ok (b =? sbits)%N else Ok false
    end
  else Ok false.

(** nfaoptimizer.cpp:111-122: the successors of the destination from position [di] on *)
Fixpoint find_merge (dst : nfa) (d2s : nat -> list nat) (src : nfa) (st : nat) (sbits : N) (cands : list nat) (di : nat) : res (option (nat * nat)) :=
  match cands with
  | [] => Ok None
  | dt :: r =>
      c <- canMerge dst d2s dt src st sbits ;;
      if c then Ok (Some (di, dt)) else find_merge dst d2s src st sbits r (S di)
  end.

Fixpoint index_of (v : nat) (l : list nat) : nat :=
  match l with
  | [] => 0
  | x :: r => if x =? v then 0 else S (index_of v r)
  end.

(** nfaoptimizer.cpp:73-165: the state, the image of the tail and the tail *)
Definition processChild (src : nfa) (s : merge) (si sh dh : nat) : res (merge * nat * nat) :=
  x <- get src sh ;;
  st <- get x.(v_out) si ;;
  o <- get s.(m_s2d) st ;;
  y <- get s.(m_dst) dh ;;
  let douts := y.(v_out) in
  ' (dst1, dt, di) <-
    (match o with
     | Some dt => Ok (s.(m_dst), dt, index_of dt douts)
     | None =>
         sbits <- bytes_at src st ;;
         let start := match s.(m_pos) dh with Some p => p | None => 0 end in
         f <- find_merge s.(m_dst) s.(m_d2s) src st sbits (skipn start douts) start ;;
         match f with
         | Some (di, dt) => Ok (s.(m_dst), dt, di)
         | None =>
             z <- get src st ;;
             Ok (s.(m_dst) ++ [mkV z.(v_trans) z.(v_match) z.(v_label) [] []], length s.(m_dst),
                 match s.(m_pos) dh with None => 0 | Some p => Nat.max p (length douts) end)
         end
     end) ;;
  dst2 <- (if memb dt douts then Ok dst1 else insertEdge dst1 dh dt di) ;;
  Ok (mkM dst2 s.(m_s2d) s.(m_d2s) (fupd s.(m_pos) dh (Some di)) s.(m_vis), dt, st).

(** the pairs (v, 0), (v, 1), ... for the successors of [v], as they are popped *)
Definition out_pairs (g : nfa) (v : nat) : list (nat * nat) := map (pair v) (seq 0 (length (outs g v))).

Definition pair_eqb (a b : nat * nat) : bool := (fst a =? fst b) && (snd a =? snd b).

(** nfaoptimizer.cpp:180-205 *)
Fixpoint merge_loop (fuel : nat) (src : nfa) (s : merge) (edges : list (nat * nat)) : res merge :=
  match edges with
  | [] => Ok s
  | (sh, si) :: rest =>
      match fuel with
      | O => Fuel
      | S k =>
          o <- get s.(m_s2d) sh ;;
          match o with
          | None => UB                       (* Src2Dst[srcHead] is NONE, no vertex *)
          | Some dh =>
              if existsb (pair_eqb (sh, si)) s.(m_vis) then merge_loop k src s rest
              else
                ' (s1, dt, st) <- processChild src (mkM s.(m_dst) s.(m_s2d) s.(m_d2s) s.(m_pos) ((sh, si) :: s.(m_vis))) si sh dh ;;
                s2d <- set_at s1.(m_s2d) st (Some dt) ;;
                let s2 := mkM s1.(m_dst) s2d (fupd s1.(m_d2s) dt (s1.(m_d2s) dt ++ [st])) s1.(m_pos) s1.(m_vis) in
                merge_loop k src s2 (out_pairs src st ++ rest)
          end
      end
  end.

(** nfaoptimizer.cpp:167-208 *)
Definition mergeIntoFSM (fuel : nat) (dst src : nfa) : res nfa :=
  s2d <- set_at (repeat None (length src)) 0 (Some 0) ;;
  s <- merge_loop fuel src (mkM dst s2d (fun _ => []) (fun _ => None) []) (out_pairs src 0) ;;
  Ok s.(m_dst).

(** * addPattern, fsmthingy.cpp:31-49 *)
Definition addPattern (fuel : nat) (enc : enc_if) (fsm : nfa) (tree : option pnode) (label : N) : res nfa :=
  o <- build enc label tree ;;
  match o with
  | None => Throw
  | Some g => g1 <- pruneBranches fuel g ;; mergeIntoFSM fuel fsm g1
  end.

(** lightgrep_c_api.cpp:149-188, one call of lg_add_pattern for each pattern; what the calls return,
    the index of the keyword or (None) -1 *)
Fixpoint add_all (fuel : nat) (fsm : nfa) (label : N) (ks : list (enc_if * option pnode)) : res (nfa * list (option N)) :=
  match ks with
  | [] => Ok (fsm, [])
  | (enc, t) :: r =>
      match addPattern fuel enc fsm t label with
      | Ok g => ' (f, rs) <- add_all fuel g (label + 1)%N r ;; Ok (f, Some label :: rs)
      | Throw => ' (f, rs) <- add_all fuel fsm label r ;; Ok (f, None :: rs)
      | UB => UB
      | Fuel => Fuel
      end
  end.

(** * labelGuardStates *)

Definition UNLABELABLE : N := 4294967294.

Definition set_label (g : nfa) (v : nat) (l : N) : res nfa :=
  x <- get g v ;; Ok (upd g v (mkV x.(v_trans) x.(v_match) l x.(v_out) x.(v_in))).

Definition has_trans (g : nfa) (v : nat) : res bool :=
  x <- get g v ;; Ok (match x.(v_trans) with Some _ => true | None => false end).

Definition label_of (g : nfa) (v : nat) : res N := x <- get g v ;; Ok x.(v_label).

(** nfaoptimizer.cpp:324-329: the parents to go on with *)
Fixpoint unlabel_parents (g : nfa) (hs unext : list nat) : res (list nat) :=
  match hs with
  | [] => Ok unext
  | uh :: r =>
      t <- has_trans g uh ;;
      l <- label_of g uh ;;
      unlabel_parents g r (if t && negb (l =? UNLABELABLE)%N then uh :: unext else unext)
  end.

(** nfaoptimizer.cpp:318-330 *)
Fixpoint unlabel (fuel : nat) (g : nfa) (unext : list nat) : res nfa :=
  match unext with
  | [] => Ok g
  | u :: rest =>
      match fuel with
      | O => Fuel
      | S k =>
          g1 <- set_label g u UNLABELABLE ;;
          x <- get g1 u ;;
          n <- unlabel_parents g1 x.(v_in) rest ;;
          unlabel k g1 n
      end
  end.

(** nfaoptimizer.cpp:293-332 *)
Fixpoint label_parents (fuel : nat) (g : nfa) (label : N) (hs next : list nat) : res (nfa * list nat) :=
  match hs with
  | [] => Ok (g, next)
  | h :: r =>
      t <- has_trans g h ;;
      l <- label_of g h ;;
      if negb t then label_parents fuel g label r next
      else if (l =? NOLABEL)%N then g1 <- set_label g h label ;; label_parents fuel g1 label r (h :: next)
      else if (l =? UNLABELABLE)%N then label_parents fuel g label r next
      else if (l =? label)%N then label_parents fuel g label r next
      else g1 <- unlabel fuel g [h] ;; label_parents fuel g1 label r next
  end.

(** nfaoptimizer.cpp:288-333 *)
Fixpoint label_back (fuel : nat) (g : nfa) (label : N) (next : list nat) : res nfa :=
  match next with
  | [] => Ok g
  | t :: rest =>
      match fuel with
      | O => Fuel
      | S k =>
          x <- get g t ;;
          ' (g1, n) <- label_parents fuel g label x.(v_in) rest ;;
          label_back k g1 label n
      end
  end.

(** nfaoptimizer.cpp:268-335, from vertex [m] on *)
Fixpoint propagate (fuel : nat) (g : nfa) (ms : list nat) : res nfa :=
  match ms with
  | [] => Ok g
  | m :: r =>
      x <- get g m ;;
      if x.(v_match) then g1 <- label_back fuel g x.(v_label) [m] ;; propagate fuel g1 r
      else propagate fuel g r
  end.

Definition propagateMatchLabels (fuel : nat) (g : nfa) : res nfa := propagate fuel g (seq 0 (length g)).

(** nfaoptimizer.cpp:352-364 *)
Fixpoint heads_out (g : nfa) (ts next visited heads : list nat) : res (nfa * list nat * list nat * list nat) :=
  match ts with
  | [] => Ok (g, next, visited, heads)
  | t :: r =>
      if memb t visited then heads_out g r next visited heads
      else
        l <- label_of g t ;;
        if (l =? UNLABELABLE)%N then g1 <- set_label g t NOLABEL ;; heads_out g1 r (t :: next) (t :: visited) heads
        else heads_out g r next (t :: visited) (t :: heads)
  end.

(** nfaoptimizer.cpp:348-365 *)
Fixpoint heads_loop (fuel : nat) (g : nfa) (next visited heads : list nat) : res (nfa * list nat * list nat) :=
  match next with
  | [] => Ok (g, visited, heads)
  | h :: rest =>
      match fuel with
      | O => Fuel
      | S k =>
          x <- get g h ;;
          ' (g1, n, vi, he) <- heads_out g x.(v_out) rest visited heads ;;
          heads_loop k g1 n vi he
      end
  end.

(** nfaoptimizer.cpp:377-385 *)
Fixpoint unlabel_out (g : nfa) (ts next visited : list nat) : res (nfa * list nat * list nat) :=
  match ts with
  | [] => Ok (g, next, visited)
  | t :: r =>
      if memb t visited then unlabel_out g r next visited
      else g1 <- set_label g t NOLABEL ;; unlabel_out g1 r (t :: next) (t :: visited)
  end.

(** nfaoptimizer.cpp:373-386 *)
Fixpoint unlabel_rest (fuel : nat) (g : nfa) (next visited : list nat) : res nfa :=
  match next with
  | [] => Ok g
  | h :: rest =>
      match fuel with
      | O => Fuel
      | S k =>
          x <- get g h ;;
          ' (g1, n, vi) <- unlabel_out g x.(v_out) rest visited ;;
          unlabel_rest k g1 n vi
      end
  end.

(** a std::set of vertices is walked in ascending order and pushed on the stack *)
Definition descending (n : nat) (heads : list nat) : list nat := filter (fun v => memb v heads) (rev (seq 0 n)).

(** nfaoptimizer.cpp:337-387 *)
Definition removeNonMinimalLabels (fuel : nat) (g : nfa) : res nfa :=
  ' (g1, visited, heads) <- heads_loop fuel g [0] [0] [] ;;
  unlabel_rest fuel g1 (descending (length g) heads) visited.

(** nfaoptimizer.cpp:263-266 *)
Definition labelGuardStates (fuel : nat) (g : nfa) : res nfa :=
  g1 <- propagateMatchLabels fuel g ;; removeNonMinimalLabels fuel g1.

(** * subsetDFA *)

Definition sstate := (N * list nat)%type.       (* SubsetState *)

(** sequences.h:35-46 *)
Fixpoint nodups (seen l : list nat) : list nat :=
  match l with
  | [] => []
  | x :: r => if memb x seen then nodups seen r else x :: nodups (x :: seen) r
  end.

(** the vertices among [vs] that are entered on byte [b]: one entry of srcTailLists,
    nfaoptimizer.cpp:389-405; a null Trans is dereferenced *)
Fixpoint tails_on (g : nfa) (vs : list nat) (b : N) : res (list nat) :=
  match vs with
  | [] => Ok []
  | v :: r =>
      s <- bytes_at g v ;;
      l <- tails_on g r b ;;
      Ok (if N.testbit s b then v :: l else l)
  end.

Definition bytes256 : list N := map N.of_nat (seq 0 256).

Fixpoint map_res {A B} (f : A -> res B) (l : list A) : res (list B) :=
  match l with
  | [] => Ok []
  | a :: r => b <- f a ;; s <- map_res f r ;; Ok (b :: s)
  end.

(** nfaoptimizer.cpp:415-422: the bytes of each list of vertices *)
Fixpoint group_add (b : N) (l : list nat) (m : list (N * list nat)) : list (N * list nat) :=
  match m with
  | [] => [(N.setbit 0 b, l)]
  | (s, l') :: r => if list_eq_dec Nat.eq_dec l l' then (N.setbit s b, l') :: r else (s, l') :: group_add b l r
  end.

Definition group_bytes (tails : list (N * list nat)) : list (N * list nat) :=
  fold_left (fun m p => group_add (fst p) (snd p) m) tails [].

(** ByteSet::compare, byteset.h:44-46, compares the 32 bytes of the set *)
Definition set_bytes (s : N) : list N := map (fun i => N.land (N.shiftr s (8 * N.of_nat i)) 255) (seq 0 32).

Fixpoint lex_le (a b : list N) : bool :=
  match a, b with
  | [], _ => true
  | _ :: _, [] => false
  | x :: r, y :: s => (x <? y)%N || ((x =? y)%N && lex_le r s)
  end.

Fixpoint ins_group (p : N * list nat) (m : list (N * list nat)) : list (N * list nat) :=
  match m with
  | [] => [p]
  | q :: r => if lex_le (set_bytes (fst p)) (set_bytes (fst q)) then p :: m else q :: ins_group p r
  end.

Definition sort_groups (m : list (N * list nat)) : list (N * list nat) := fold_right ins_group [] m.

(** nfaoptimizer.cpp:430-448 and 519-523: match vertices alone, other neighbours together; [cur] is
    the group being collected, last vertex first *)
Fixpoint det_groups (g : nfa) (vs cur : list nat) : res (list (list nat)) :=
  let close := match cur with [] => [] | _ => [rev cur] end in
  match vs with
  | [] => Ok close
  | v :: r =>
      x <- get g v ;;
      if x.(v_match) then l <- det_groups g r [] ;; Ok (close ++ [v] :: l)
      else det_groups g r (v :: cur)
  end.

Record dfa := mkD {
  d_dst : nfa;
  d_map : list (sstate * nat);         (* dstList2Dst *)
  d_stack : list (sstate * N);         (* dstStack, with depths *)
  d_orig : list (option nat)           (* src2Dst *)
}.

Definition sstate_eqb (a b : sstate) : bool :=
  (fst a =? fst b)%N && (if list_eq_dec Nat.eq_dec (snd a) (snd b) then true else false).

Fixpoint find_state (m : list (sstate * nat)) (s : sstate) : option nat :=
  match m with
  | [] => None
  | (k, v) :: r => if sstate_eqb s k then Some v else find_state r s
  end.

(** nfaoptimizer.cpp:450-484 *)
Definition makeDestinationState (src : nfa) (d : dfa) (dh : nat) (bs : N) (l : list nat) (depth : N) : res dfa :=
  ' (d1, dt) <-
    (match find_state d.(d_map) (bs, l) with
     | Some dt => Ok (d, dt)
     | None =>
         f <- get l 0 ;;
         x <- get src f ;;
         let dt := length d.(d_dst) in
         Ok (mkD (d.(d_dst) ++ [mkV (Some (getSmallest bs)) x.(v_match) (if x.(v_match) then x.(v_label) else NOLABEL) [] []])
                 (((bs, l), dt) :: d.(d_map)) (((bs, l), depth) :: d.(d_stack)) d.(d_orig), dt)
     end) ;;
  g <- addEdge d1.(d_dst) dh dt ;;
  Ok (mkD g d1.(d_map) d1.(d_stack) d1.(d_orig)).

Fixpoint make_states (src : nfa) (d : dfa) (dh : nat) (depth : N) (l : list (N * list nat)) : res dfa :=
  match l with
  | [] => Ok d
  | (bs, vs) :: r => d1 <- makeDestinationState src d dh bs vs depth ;; make_states src d1 dh depth r
  end.

(** nfaoptimizer.cpp:496-525 *)
Definition subset_groups (src : nfa) (heads : list nat) : res (list (N * list nat)) :=
  os <- map_res (fun h => x <- get src h ;; Ok x.(v_out)) heads ;;
  tails <- map_res (fun b => l <- tails_on src (concat os) b ;; Ok (b, nodups [] l)) bytes256 ;;
  gs <- map_res (fun p : N * list nat => l <- det_groups src (snd p) [] ;; Ok (map (pair (fst p)) l)) (sort_groups (group_bytes tails)) ;;
  Ok (concat gs).

(** nfaoptimizer.cpp:486-534 *)
Definition handleSuccessors (src : nfa) (d : dfa) (heads : list nat) (dh : nat) (depth : N) : res dfa :=
  l <- subset_groups src heads ;; make_states src d dh depth l.

(** the image of [n] in the copy of the original graph, made if there is none
    (nfaoptimizer.cpp:569-570, 634-643); and whether it was made *)
Definition image (d : dfa) (n : nat) : res (dfa * nat * bool) :=
  o <- get d.(d_orig) n ;;
  match o with
  | Some v => Ok (d, v, false)
  | None =>
      let v := length d.(d_dst) in
      Ok (mkD (d.(d_dst) ++ [v_new]) d.(d_map) d.(d_stack) (upd d.(d_orig) n (Some v)), v, true)
  end.

(** nfaoptimizer.cpp:567-573 *)
Fixpoint connect (d : dfa) (dh : nat) (ns : list nat) : res dfa :=
  match ns with
  | [] => Ok d
  | n :: r =>
      ' (d1, v, _) <- image d n ;;
      g <- addEdge d1.(d_dst) dh v ;;
      connect (mkD g d1.(d_map) d1.(d_stack) d1.(d_orig)) dh r
  end.

(** nfaoptimizer.cpp:536-575 *)
Definition connectSubsetStateToOriginal (src : nfa) (d : dfa) (heads : list nat) (dh : nat) : res dfa :=
  os <- map_res (fun h => x <- get src h ;; Ok x.(v_out)) heads ;; connect d dh (concat os).

(** nfaoptimizer.cpp:666-688 *)
Fixpoint subset_loop (fuel : nat) (src : nfa) (limit : N) (d : dfa) : res dfa :=
  match d.(d_stack) with
  | [] => Ok d
  | (ss, depth) :: rest =>
      match fuel with
      | O => Fuel
      | S k =>
          let d0 := mkD d.(d_dst) d.(d_map) rest d.(d_orig) in
          match find_state d.(d_map) ss with
          | None => UB
          | Some dh =>
              d1 <- (if (depth <? limit)%N then handleSuccessors src d0 (snd ss) dh (depth + 1)
                     else connectSubsetStateToOriginal src d0 (snd ss) dh) ;;
              subset_loop k src limit d1
          end
      end
  end.

(** nfaoptimizer.cpp:632-647; [new] gets the vertices still to be copied *)
Fixpoint complete_out (d : dfa) (hh : nat) (ts new : list nat) : res (dfa * list nat) :=
  match ts with
  | [] => Ok (d, new)
  | t :: r =>
      ' (d1, ti, made) <- image d t ;;
      g <- addEdge d1.(d_dst) hh ti ;;
      complete_out (mkD g d1.(d_map) d1.(d_stack) d1.(d_orig)) hh r (if made then t :: new else new)
  end.

(** nfaoptimizer.cpp:623-648 *)
Fixpoint complete_loop (fuel : nat) (src : nfa) (d : dfa) (next : list nat) : res dfa :=
  match next with
  | [] => Ok d
  | h :: rest =>
      match fuel with
      | O => Fuel
      | S k =>
          o <- get d.(d_orig) h ;;
          match o with
          | None => UB
          | Some hh =>
              x <- get src h ;;
              y <- get d.(d_dst) hh ;;
              let d1 := mkD (upd d.(d_dst) hh (mkV x.(v_trans) x.(v_match) x.(v_label) y.(v_out) y.(v_in))) d.(d_map) d.(d_stack) d.(d_orig) in
              ' (d2, n) <- complete_out d1 hh x.(v_out) rest ;;
              complete_loop k src d2 n
          end
      end
  end.

(** the vertices with an image, pushed in ascending order *)
Definition has_image (o : list (option nat)) (v : nat) : bool :=
  match nth_error o v with Some (Some _) => true | _ => false end.
Definition with_image (o : list (option nat)) : list nat := filter (has_image o) (rev (seq 0 (length o))).

(** nfaoptimizer.cpp:651-697 *)
Definition subsetDFA (fuel : nat) (src : nfa) (limit : N) : res nfa :=
  d <- subset_loop fuel src limit (mkD [v_new] [((0%N, [0]), 0)] [((0%N, [0]), 0%N)] (repeat None (length src))) ;;
  d' <- complete_loop fuel src d (with_image d.(d_orig)) ;;
  Ok d'.(d_dst).

(** fsmthingy.cpp:51-65; [det] is the flag Deterministic *)
Definition finalizeGraph (fuel : nat) (det : bool) (limit : N) (g : nfa) : res nfa :=
  if length g <? 2 then Throw
  else
    g1 <- (if negb (limit =? 0)%N && negb det then subsetDFA fuel g limit else Ok g) ;;
    labelGuardStates fuel g1.
