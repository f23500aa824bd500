(** Model of code generation: src/lib/codegen.cpp, include/codegen.h,
    src/lib/compiler.cpp, and pivotStates, maxOutbound, bestPair of src/lib/utility.cpp.

    Simplifications:
    - the instructions a state writes are collected in a list and written at the address
      of the state in one go; a jump table's table and its indirect tables are adjacent, so
      the interleaved writes of createJumpTable are one list too;
    - loops without a structural measure take fuel. *)
From Verif Require Import Base InstrModel NfaModel.
From Verif Require Import VmModel.
Open Scope N_scope.

(** codegen.h:29 *)
Definition NONE32 : N := 4294967295.

(** codegen.h:32-53.  [sn_jt] says whether Op is JUMP_TABLE_RANGE_OP. *)
Record snip := mkSn { sn_start : N; sn_eval : N; sn_other : N; sn_check : N; sn_jt : bool }.
Definition sn_new : snip := mkSn NONE32 NONE32 NONE32 NONE32 false.
Definition sn_end (s : snip) : N := (s.(sn_start) + s.(sn_eval) + s.(sn_other)) mod two32.

(** codegen.h:55-92 *)
Record helper := mkH {
  h_ranks : list N;
  h_snips : list snip;
  h_guard : N;
  h_num : N;
  h_maxLabel : N;
  h_maxCheck : N
}.

Definition helper_new (n : nat) : helper := mkH (repeat NONE32 n) (repeat sn_new n) 0 0 0 0.

(** codegen.h:60-71 (discover) *)
Definition discover (g : nfa) (h : helper) (v : nat) : res helper :=
  x <- get g v ;;
  ranks <- set_at h.(h_ranks) v h.(h_num) ;;
  s <- get h.(h_snips) v ;;
  let big := (1 <? length x.(v_in))%nat in
  let mc := if big then (h.(h_maxCheck) + 1) mod two32 else h.(h_maxCheck) in
  snips <- (if big then set_at h.(h_snips) v (mkSn s.(sn_start) s.(sn_eval) s.(sn_other) mc s.(sn_jt))
            else Ok h.(h_snips)) ;;
  let ml := if negb (x.(v_label) =? NONE32) && (h.(h_maxLabel) <? x.(v_label))
            then x.(v_label) else h.(h_maxLabel) in
  Ok (mkH ranks snips h.(h_guard) ((h.(h_num) + 1) mod two32) ml mc).

(** codegen.cpp:100-131 (specialVisit), the marking loop over the successors. *)
Fixpoint visit_outs (nobranch : bool) (ts : list nat) (disc : list bool) (q : list nat)
  : res (list bool * list nat) :=
  match ts with
  | [] => Ok (disc, q)
  | t :: r =>
      d <- get disc t ;;
      if (d : bool) then visit_outs nobranch r disc q
      else visit_outs nobranch r (upd disc t true) (if nobranch then t :: q else q ++ [t])
  end.

(** codegen.cpp:108-131, the loop over the deque.  Returns the order of discovery. *)
Fixpoint visit (fuel : nat) (g : nfa) (h : helper) (disc : list bool) (q : list nat)
  : res (helper * list nat) :=
  match q with
  | [] => Ok (h, [])
  | v :: q' =>
      match fuel with
      | O => Fuel
      | S f =>
          h1 <- discover g h v ;;
          let ts := outs g v in
          '(disc1, q1) <- visit_outs (length ts <? 2)%nat ts disc q' ;;
          '(h2, order) <- visit f g h1 disc1 q1 ;;
          Ok (h2, v :: order)
      end
  end.

(** A table from bytes to lists of vertices, utility.h. *)
Definition table := list (list nat).

(** utility.cpp:115-130 (pivotStates).  for_each_set_bit visits the set bits upwards
    (byteset.h:81-97), each cell being changed independently of the others. *)
Definition pivot_add (s : N) (ov : nat) (tbl : table) : table :=
  map (fun p => let '(i, cell) := p in
                if N.testbit s (N.of_nat i) then
                  (if existsb (Nat.eqb ov) cell then cell else cell ++ [ov])
                else cell)
      (combine (seq 0 256) tbl).

Fixpoint pivot_loop (g : nfa) (ts : list nat) (tbl : table) : res table :=
  match ts with
  | [] => Ok tbl
  | ov :: r =>
      x <- get g ov ;;
      match x.(v_trans) with
      | None => UB                                   (* null Trans dereferenced *)
      | Some t => pivot_loop g r (pivot_add (bytes_of t) ov tbl)
      end
  end.

Definition pivotStates (g : nfa) (v : nat) : res table := pivot_loop g (outs g v) (repeat [] 256).

(** utility.cpp:132-139 *)
Definition maxOutbound (tbl : table) : nat := fold_right (fun c m => Nat.max (length c) m) 0%nat tbl.

(** Least and greatest index with a non-empty cell, codegen.cpp:37-46. *)
Definition used (tbl : table) : list nat :=
  filter (fun i => match nth i tbl [] with [] => false | _ => true end) (seq 0 256).
Definition first_used (tbl : table) : nat := hd 256%nat (used tbl).
Definition last_used (tbl : table) : nat := last (used tbl) 0%nat.

(** codegen.cpp:27-54 (calcJumpTableSize): [Some size] when a jump table is used. *)
Definition calcJumpTableSize (g : nfa) (v : nat) (outDegree : nat) : res (option N) :=
  if (3 <? outDegree)%nat then
    tbl <- pivotStates g v ;;
    if (maxOutbound tbl <? outDegree)%nat then
      let ind := fold_right (fun (c : list nat) n => if (1 <? length c)%nat then N.of_nat (length c) + n else n) 0 tbl in
      (* last - first wraps when the table is empty *)
      let span := (N.of_nat (last_used tbl) + two32 - N.of_nat (first_used tbl)) mod two32 in
      Ok (Some ((2 + span + 2 * ind) mod two32))
    else Ok None
  else Ok None.

(** codegen.cpp:56-98 (finish_vertex) with addSnippet, codegen.h:73-79. *)
Definition finish_vertex (g : nfa) (h : helper) (v : nat) : res helper :=
  x <- get g v ;;
  s <- get h.(h_snips) v ;;
  eval <- (if (v =? 0)%nat then Ok 0
           else match x.(v_trans) with Some t => Ok (numInstructions t) | None => UB end) ;;
  let od := length x.(v_out) in
  let label := if x.(v_label) =? NONE32 then 0 else 1 in
  let mtch := if x.(v_match) then (if (od =? 0)%nat then 2 else 3) else 0 in
  jt <- (if (od =? 0)%nat then Ok None else calcJumpTableSize g v od) ;;
  outOps <- (match x.(v_out) with
             | [] => Ok 0
             | c :: _ =>
                 let n0 := match jt with Some n => n | None => 0 end in
                 if (od <? 4)%nat || (n0 =? 0) then
                   rv <- get h.(h_ranks) v ;;
                   rc <- get h.(h_ranks) c ;;
                   Ok (n0 + 2 * N.of_nat (od - 1) + (if (rv + 1) mod two32 =? rc then 0 else 2))
                 else Ok n0
             end) ;;
  let other := (outOps + label + mtch + (if s.(sn_check) =? NONE32 then 0 else 1)) mod two32 in
  let s' := mkSn h.(h_guard) eval other s.(sn_check) (match jt with Some _ => true | None => s.(sn_jt) end) in
  snips <- set_at h.(h_snips) v s' ;;
  Ok (mkH h.(h_ranks) snips ((h.(h_guard) + eval + other) mod two32) h.(h_num) h.(h_maxLabel) h.(h_maxCheck)).

Fixpoint finish_all (g : nfa) (h : helper) (order : list nat) : res helper :=
  match order with
  | [] => Ok h
  | v :: r => h1 <- finish_vertex g h v ;; finish_all g h1 r
  end.

(** codegen.cpp:100-136 (specialVisit) from vertex 0. *)
Definition specialVisit (fuel : nat) (g : nfa) : res (helper * list nat) :=
  let n := length g in
  disc <- set_at (repeat false n) 0 true ;;
  '(h, order) <- visit fuel g (helper_new n) disc [0%nat] ;;
  h' <- finish_all g h order ;;
  Ok (h', order).

(** compiler.cpp:26-37 *)
Definition figureOutLanding (g : nfa) (sn : list snip) (v : nat) : res N :=
  x <- get g v ;;
  if (length x.(v_out) =? 1)%nat && (x.(v_label) =? NONE32) && negb x.(v_match) then
    s <- get sn (hd 0%nat x.(v_out)) ;; Ok s.(sn_start)
  else s <- get sn v ;; Ok ((s.(sn_start) + s.(sn_eval)) mod two32).

(** compiler.cpp:39-56: the second loop stops at [first], leaving 255 if nothing above
    [first] is used. *)
Definition minAndMax (tbl : table) : nat * nat :=
  let first := match used tbl with [] => 0%nat | i :: _ => i end in
  let l := last_used tbl in
  (first, if (first <? l)%nat then l else 255%nat).

(** compiler.cpp:85-93: one indirect table, for successors [cs] with landings [ls]. *)
Definition indirect (ls : list N) : list N :=
  match ls with
  | [] => []
  | l :: r => flat_map makeFork (rev r) ++ makeJump l
  end.

(** compiler.cpp:71-95: the loop over the bytes first..last.  [ind] is the address of the
    next indirect table.  Returns the table and the indirect tables. *)
Fixpoint jump_cells (g : nfa) (sn : list snip) (cells : table) (ind : N) : res (list N * list N) :=
  match cells with
  | [] => Ok ([], [])
  | c :: r =>
      match c with
      | [] => '(t, i) <- jump_cells g sn r ind ;; Ok (makeRaw32 0 :: t, i)
      | [v] => a <- figureOutLanding g sn v ;;
               '(t, i) <- jump_cells g sn r ind ;; Ok (makeRaw32 a :: t, i)
      | _ =>
          ls <- (fix go (vs : list nat) : res (list N) :=
                   match vs with
                   | [] => Ok []
                   | v :: vs' => a <- figureOutLanding g sn v ;; l <- go vs' ;; Ok (a :: l)
                   end) c ;;
          let code := indirect ls in
          '(t, i) <- jump_cells g sn r (ind + N.of_nat (length code)) ;;
          Ok (makeRaw32 (ind mod two32) :: t, code ++ i)
      end
  end.

(** compiler.cpp:59-103 (createJumpTable) at address [start]: the words written. *)
Definition createJumpTable (g : nfa) (sn : list snip) (v : nat) (start : N) : res (list N) :=
  tbl <- pivotStates g v ;;
  let '(first, last) := minAndMax tbl in
  head <- makeJumpTableRange (N.of_nat first) (N.of_nat last) ;;
  '(t, i) <- jump_cells g sn (firstn (last + 1 - first) (skipn first tbl)) (start + 2 + N.of_nat (last - first)) ;;
  Ok (head :: t ++ i).

Fixpoint map_res {A B} (f : A -> res B) (l : list A) : res (list B) :=
  match l with [] => Ok [] | a :: r => b <- f a ;; m <- map_res f r ;; Ok (b :: m) end.

(** compiler.cpp:105-107 (targetCodeFollowsSource) *)
Definition targetCodeFollowsSource (ranks : list N) (v c : nat) : res bool :=
  rv <- get ranks v ;; rc <- get ranks c ;; Ok ((rv + 1) mod two32 =? rc).

(** compiler.cpp:109-160 (encodeState).  The words written, and for a jump table whether
    the end address is the expected one (compiler.cpp:97-102). *)
Definition encodeState (g : nfa) (h : helper) (v : nat) : res (list N * bool) :=
  x <- get g v ;;
  s <- get h.(h_snips) v ;;
  pre <- (match x.(v_trans) with
          | None => Ok []
          | Some t =>
              ev <- toInstruction t ;;
              lab <- (if x.(v_label) =? NONE32 then Ok [] else w <- makeLabel x.(v_label) ;; Ok [w]) ;;
              chk <- (if s.(sn_check) =? NONE32 then Ok [] else w <- makeCheckHalt s.(sn_check) ;; Ok [w]) ;;
              let m := if x.(v_match) then
                         makeMatch :: (match x.(v_out) with
                                       | [] => [makeFinish]
                                       | _ => makeFork ((h.(h_guard) + 1) mod two32)
                                       end)
                       else [] in
              Ok (ev ++ lab ++ chk ++ m)
          end) ;;
  let cur := s.(sn_start) + N.of_nat (length pre) in
  if s.(sn_jt) then
    jt <- createJumpTable g h.(h_snips) v cur ;;
    Ok (pre ++ jt, cur + N.of_nat (length jt) =? sn_end s)
  else
    match x.(v_out) with
    | [] => Ok (pre, true)
    | c :: r =>
        starts <- map_res (fun t => st <- get h.(h_snips) t ;; Ok st.(sn_start)) r ;;
        sc <- get h.(h_snips) c ;;
        follows <- targetCodeFollowsSource h.(h_ranks) v c ;;
        Ok (pre ++ flat_map makeFork (rev starts) ++ (if (follows : bool) then [] else makeJump sc.(sn_start)), true)
    end.

(** Writing words from address [a] on; outside the program is undefined behaviour. *)
Fixpoint write (ws : list N) (a : nat) (prog : list N) : res (list N) :=
  match ws with
  | [] => Ok prog
  | w :: r => p <- set_at prog a w ;; write r (S a) p
  end.

(** compiler.cpp:178-183: the loop over all vertices. *)
Fixpoint encode_all (g : nfa) (h : helper) (vs : list nat) (prog : list N) : res (list N) :=
  match vs with
  | [] => Ok prog
  | v :: r =>
      s <- get h.(h_snips) v ;;
      '(ws, fits) <- encodeState g h v ;;
      p <- write ws (N.to_nat s.(sn_start)) prog ;;
      if (fits : bool) then encode_all g h r p else Throw
  end.

(** Number of set bits, std::bitset::count. *)
Fixpoint popcount_pos (p : positive) : N :=
  match p with xH => 1 | xO q => popcount_pos q | xI q => 1 + popcount_pos q end.
Definition popcount (n : N) : N := match n with N0 => 0 | Npos p => popcount_pos p end.

(** The heap of utility.cpp:24-25: a std::set of (depth, vertex), a sorted list without
    repetitions. *)
Fixpoint heap_add (x : N * nat) (s : list (N * nat)) : list (N * nat) :=
  match s with
  | [] => [x]
  | y :: r =>
      if (fst x <? fst y) || ((fst x =? fst y) && (snd x <? snd y)%nat) then x :: s
      else if (fst x =? fst y) && (snd x =? snd y)%nat then s
      else y :: heap_add x r
  end.

(** utility.cpp:71, 82-88: [first] is OR-ed into the 256-bit chunk number [s], for each [s]
    in [second].  All chunks are OR-ed at once. *)
Fixpoint chunks (first second : N) (s : N) (n : nat) : N :=
  match n with
  | O => 0
  | S n' => N.lor (if N.testbit second s then first else 0) (N.shiftl (chunks first second (s + 1) n') 256)
  end.
Definition or_chunks (first second bits : N) : N := N.lor bits (chunks first second 0 256).

Definition trans_at (g : nfa) (v : nat) : res trans :=
  x <- get g v ;; match x.(v_trans) with Some t => Ok t | None => UB end.

(** utility.cpp:78-90 *)
Fixpoint pairs_second (g : nfa) (first : N) (ts : list nat) (bits : N) : res N :=
  match ts with
  | [] => Ok bits
  | t1 :: r => t <- trans_at g t1 ;; pairs_second g first r (or_chunks first (bytes_of t) bits)
  end.

(** utility.cpp:61-91 *)
Fixpoint pairs_first (g : nfa) (ts : list nat) (bits : N) : res N :=
  match ts with
  | [] => Ok bits
  | t0 :: r =>
      t <- trans_at g t0 ;;
      x <- get g t0 ;;
      b1 <- (if x.(v_match) then Ok (or_chunks (bytes_of t) (N.ones 256) bits)
             else pairs_second g (bytes_of t) x.(v_out) bits) ;;
      pairs_first g r b1
  end.

(** utility.cpp:36-92: the main loop.  [b] is the vector of bitsets. *)
Fixpoint pair_loop (fuel : nat) (g : nfa) (next : list (N * nat)) (b : list N) (lmin : N)
  : res (list N * N) :=
  match next with
  | [] => Ok (b, lmin)
  | (depth, v) :: rest =>
      if lmin + 1 <? depth then Ok (b, lmin)
      else
        match fuel with
        | O => Fuel
        | S f =>
            x <- get g v ;;
            let lmin' := if x.(v_match) && (depth <? lmin) then depth else lmin in
            let next' := if depth <? lmin' + 1
                         then fold_left (fun s t => heap_add ((depth + 1) mod two32, t) s) x.(v_out) rest
                         else rest in
            let d := N.to_nat depth in
            let b1 := b ++ repeat 0 (d + 1 - length b) in
            bits <- get b1 d ;;
            bits' <- pairs_first g x.(v_out) bits ;;
            pair_loop f g next' (upd b1 d bits') lmin'
        end
  end.

(** std::min_element by count: the first of the least ones. *)
Fixpoint min_index (b : list N) (i : nat) (best : nat * N) : nat * N :=
  match b with
  | [] => best
  | x :: r => min_index r (S i) (if popcount x <? popcount (snd best) then (i, x) else best)
  end.

(** utility.cpp:22-113 (bestPair) *)
Definition bestPair (fuel : nat) (g : nfa) : res (N * N) :=
  '(b, lmin) <- pair_loop fuel g [(0, 0%nat)] [] 4294967294 ;;
  let b' := if lmin <? N.of_nat (length b) then firstn (N.to_nat lmin) b else b in
  match b' with
  | [] => UB                                          (* end() dereferenced *)
  | x :: r => let '(i, bits) := min_index r 1 (0%nat, x) in Ok (N.of_nat i, bits)
  end.

(** compiler.cpp:165-190 (createProgram).  [fuel1] bounds the visit, [fuel2] bestPair. *)
Definition createProgram (fuel1 fuel2 : nat) (g : nfa) : res program :=
  '(h, _) <- specialVisit fuel1 g ;;
  let n := N.to_nat ((h.(h_guard) + 2) mod two32) in
  '(off, filter) <- bestPair fuel2 g ;;
  p1 <- encode_all g h (seq 0 (length g)) (repeat makeHalt n) ;;
  p2 <- set_at p1 (N.to_nat h.(h_guard)) makeHalt ;;
  p3 <- set_at p2 (N.to_nat h.(h_guard) + 1) makeFinish ;;
  Ok {| p_words := p3; p_maxLabel := h.(h_maxLabel); p_maxCheck := h.(h_maxCheck);
        p_filterOff := off; p_filter := filter |}.
