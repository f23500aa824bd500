(** Model of the search engine, src/lib/vm.cpp, on raw 32-bit program words.

    Simplifications, all local to this file:
    - the thread trace code (LBT_TRACE_ENABLED) and ThreadCountHist are left out;
    - the two SparseSets are modelled by lists of members with the same bounds check
      (SparseSetModel.v / Thm_SparseSet.v relate the real structure to that);
    - pointers into the program and into buffers are indices, so the comparison
      [cur < end - FilterOff - 1] is one of integers (vm.cpp:581,586);
    - the machine is little endian (vm.cpp:468 reads two bytes as a uint16_t).  *)
From Verif Require Import Base.
Open Scope N_scope.

(** include/instructions.h:24-39 *)
Inductive opc :=
| OpJumpTable | OpByte | OpBitVector | OpEither | OpRange | OpAny | OpFinish
| OpFork | OpJump | OpCheckHalt | OpLabel | OpMatch | OpHalt | OpOther.

Definition decode_opc (n : N) : opc :=
  if n =? 0 then OpJumpTable else if n =? 1 then OpByte else if n =? 2 then OpBitVector
  else if n =? 3 then OpEither else if n =? 4 then OpRange else if n =? 5 then OpAny
  else if n =? 6 then OpFinish else if n =? 7 then OpFork else if n =? 8 then OpJump
  else if n =? 9 then OpCheckHalt else if n =? 10 then OpLabel else if n =? 11 then OpMatch
  else if n =? 12 then OpHalt else OpOther.

(** Fields of the packed 4-byte instruction, include/instructions.h:48-72. *)
Definition w_op (w : N) : opc := decode_opc (w mod 256).
Definition w_flags (w : N) : N := (w / 256) mod 256.
Definition w_first (w : N) : N := (w / 65536) mod 256.   (* T1.Byte, T2.First *)
Definition w_last (w : N) : N := (w / 16777216) mod 256. (* T2.Last *)
Definition w_off (w : N) : N := (w / 256) mod 16777216.  (* Offset : 24 *)
Definition w_negate (w : N) : bool := N.odd (w_flags w).  (* Flags & NEGATE *)

(** include/program.h:32-47.  [p_filter] is the bitset, bit i of the number being bit i. *)
Record program := {
  p_words : list N;
  p_maxLabel : N;
  p_maxCheck : N;
  p_filterOff : N;
  p_filter : N
}.

(** src/lib/thread.cpp:22-23 *)
Definition NOLABEL : N := 4294967295.
Definition NONE : N := 18446744073709551615.

(** include/thread.h:69-75 (a null PC is represented by the absence of a thread). *)
Record thread := mkT {
  t_pc : nat;
  t_start : N;
  t_end : N;
  t_label : N;
  t_lead : bool
}.

Definition set_pc (t : thread) (pc : nat) : thread :=
  mkT pc t.(t_start) t.(t_end) t.(t_label) t.(t_lead).

(** include/searchhit.h, include/lightgrep/search_hit.h *)
Record hit := mkHit { h_start : N; h_end : N; h_label : N }.

(** include/vm.h:114-131, without Prog, ProgEnd and First, which never change after
    construction.  [s_cb] says whether CurHitFn is non-null; [s_hits] records the calls
    made to it, oldest first. *)
Record vmst := mkSt {
  s_active : list thread;
  s_next : list thread;
  s_checks : list N;
  s_liveno : bool;
  s_live : list N;
  s_mends : list N;
  s_mmax : N;
  s_cb : bool;
  s_hits : list hit
}.

Definition mem (x : N) (l : list N) : bool := existsb (N.eqb x) l.

(** SparseSet::find with its range: CheckLabels(MaxCheck+1), Live(MaxLabel+1), vm.cpp:126-127. *)
Definition find_check (P : program) (st : vmst) (c : N) : res bool :=
  if c <? (P.(p_maxCheck) + 1) mod two32 then Ok (mem c st.(s_checks)) else UB.
Definition find_live (P : program) (st : vmst) (l : N) : res bool :=
  if l <? (P.(p_maxLabel) + 1) mod two32 then Ok (mem l st.(s_live)) else UB.

Definition get_mend (st : vmst) (l : N) : res N := get st.(s_mends) (N.to_nat l).

Definition with_next st n := mkSt st.(s_active) n st.(s_checks) st.(s_liveno) st.(s_live) st.(s_mends) st.(s_mmax) st.(s_cb) st.(s_hits).
Definition with_active st a := mkSt a st.(s_next) st.(s_checks) st.(s_liveno) st.(s_live) st.(s_mends) st.(s_mmax) st.(s_cb) st.(s_hits).
Definition with_checks st c := mkSt st.(s_active) st.(s_next) c st.(s_liveno) st.(s_live) st.(s_mends) st.(s_mmax) st.(s_cb) st.(s_hits).
Definition with_liveno st b := mkSt st.(s_active) st.(s_next) st.(s_checks) b st.(s_live) st.(s_mends) st.(s_mmax) st.(s_cb) st.(s_hits).
Definition with_live st l := mkSt st.(s_active) st.(s_next) st.(s_checks) st.(s_liveno) l st.(s_mends) st.(s_mmax) st.(s_cb) st.(s_hits).
Definition with_mends st m x := mkSt st.(s_active) st.(s_next) st.(s_checks) st.(s_liveno) st.(s_live) m x st.(s_cb) st.(s_hits).
Definition with_cb st b := mkSt st.(s_active) st.(s_next) st.(s_checks) st.(s_liveno) st.(s_live) st.(s_mends) st.(s_mmax) b st.(s_hits).
Definition with_hits st h := mkSt st.(s_active) st.(s_next) st.(s_checks) st.(s_liveno) st.(s_live) st.(s_mends) st.(s_mmax) st.(s_cb) h.

(** Calling the callback CurHitFn, vm.cpp:301-304, 671. *)
Definition emit (st : vmst) (h : hit) : vmst :=
  if st.(s_cb) then with_hits st (st.(s_hits) ++ [h]) else st.

(** vm.cpp:181-188 (_markLive) *)
Definition markLive (P : program) (st : vmst) (l : N) : res vmst :=
  if l =? NOLABEL then Ok (with_liveno st true)
  else b <- find_live P st l ;;
       if b then Ok st else Ok (with_live st (l :: st.(s_live))).

(** _markLive followed by Next.push_back, vm.cpp:320-321, 395-396 *)
Definition push_next (P : program) (st : vmst) (t : thread) : res vmst :=
  st1 <- markLive P st t.(t_label) ;; Ok (with_next st1 (st1.(s_next) ++ [t])).

Definition fetch (P : program) (pc : nat) : res N := get P.(p_words) pc.

(** vm.cpp:190-242 (_execute).  [None]: the thread dies. *)
Definition exec_byte (P : program) (t : thread) (b : N) : res (option thread) :=
  w <- fetch P t.(t_pc) ;;
  match w_op w with
  | OpJumpTable =>
      if (w_first w <=? b) && (b <=? w_last w) then
        a <- fetch P (t.(t_pc) + 1 + N.to_nat (b - w_first w)) ;;
        if a =? 0 then Ok None else Ok (Some (set_pc t (N.to_nat a)))
      else Ok None
  | OpByte =>
      if xorb (b =? w_first w) (w_negate w)
      then Ok (Some (set_pc t (t.(t_pc) + 1))) else Ok None
  | OpBitVector =>
      v <- fetch P (t.(t_pc) + 1 + N.to_nat (b / 32)) ;;
      if N.testbit v (b mod 32)
      then Ok (Some (set_pc t (t.(t_pc) + 9))) else Ok None
  | OpEither =>
      if xorb ((b =? w_first w) || (b =? w_last w)) (w_negate w)
      then Ok (Some (set_pc t (t.(t_pc) + 1))) else Ok None
  | OpRange =>
      if xorb ((w_first w <=? b) && (b <=? w_last w)) (w_negate w)
      then Ok (Some (set_pc t (t.(t_pc) + 1))) else Ok None
  | OpAny => Ok (Some (set_pc t (t.(t_pc) + 1)))
  | OpFinish => Ok (Some t)
  | _ => Ok None
  end.

(** vm.cpp:244-255 (_liveCheck) *)
Definition live_check (P : program) (st : vmst) (start label : N) : res bool :=
  if label =? NOLABEL then
    Ok (match st.(s_next) with [] => start <? st.(s_mmax) | _ => true end)
  else if st.(s_liveno) then Ok true else find_live P st label.

(** ProgEnd, vm.cpp:124 *)
Definition progEnd (P : program) : nat := (length P.(p_words) - 2)%nat.

(** vm.cpp:273-280: the lead thread kills all same-labelled threads after it. *)
Definition kill_label (P : program) (l : N) (later : list thread) : list thread :=
  map (fun i => if i.(t_label) =? l then set_pc i (progEnd P) else i) later.

(** vm.cpp:282-290: otherwise it kills the same-labelled ones of the run of threads with
    its own start. *)
Fixpoint kill_same_start (P : program) (l start : N) (later : list thread) : list thread :=
  match later with
  | i :: r => if i.(t_start) =? start then
                (if i.(t_label) =? l then set_pc i (progEnd P) else i)
                  :: kill_same_start P l start r
              else later
  | [] => []
  end.

(** The FINISH case of _executeEpsilon, vm.cpp:263-311.  Returns the thread if its PC
    is still set. *)
Definition exec_finish (P : program) (st : vmst) (later : list thread) (t : thread) (off : N)
  : res (vmst * list thread * option thread) :=
  let later' :=
    if t.(t_end) =? off then
      if t.(t_lead) then kill_label P t.(t_label) later
      else kill_same_start P t.(t_label) t.(t_start) later
    else later in
  blocked <- (if st.(s_liveno) then Ok true else find_live P st t.(t_label)) ;;
  if (blocked : bool) then Ok (st, later', Some t)
  else
    me <- get_mend st t.(t_label) ;;
    if me <=? t.(t_start) then
      let e1 := (t.(t_end) + 1) mod two64 in
      mends' <- set_at st.(s_mends) (N.to_nat t.(t_label)) e1 ;;
      let st1 := with_mends st mends' (if st.(s_mmax) <? e1 then e1 else st.(s_mmax)) in
      Ok (emit st1 (mkHit t.(t_start) e1 t.(t_label)), later', None)
    else Ok (st, later', None).

(** vm.cpp:405-407: threads overlapping an emitted match are dropped on entry to
    _executeEpSequence. *)
Definition overlapped (st : vmst) (t : thread) : res bool :=
  if t.(t_label) =? NOLABEL then Ok false
  else me <- get_mend st t.(t_label) ;; Ok (t.(t_start) <? me).

(** vm.cpp:258-381 and 402-433: the loop [while (_executeEpsilon(...));] of
    _executeEpSequence, the recursive call made by FORK included.  The result holds the
    thread if its PC is not null at the end.  [later] are the threads after [t] in Active. *)
Fixpoint ep_loop (fuel : nat) (P : program) (st : vmst) (later : list thread) (t : thread)
  (off : N) : res (vmst * list thread * option thread) :=
  match fuel with
  | O => Fuel
  | S f =>
    w <- fetch P t.(t_pc) ;;
    match w_op w with
    | OpFinish => exec_finish P st later t off
    | OpFork =>
        let c := set_pc t (t.(t_pc) + 2) in
        ov <- overlapped st c ;;
        '(st1, later1, oc) <-
            (if (ov : bool) then Ok (st, later, None) else ep_loop f P st later c off) ;;
        st2 <- match oc with Some c' => push_next P st1 c' | None => Ok st1 end ;;
        a <- fetch P (t.(t_pc) + 1) ;;
        ep_loop f P st2 later1 (set_pc t (N.to_nat a)) off
    | OpJump =>
        a <- fetch P (t.(t_pc) + 1) ;;
        ep_loop f P st later (set_pc t (N.to_nat a)) off
    | OpCheckHalt =>
        locked <- find_check P st (w_off w) ;;
        if (locked : bool) then Ok (st, later, None)
        else
          blk <- live_check P st t.(t_start) t.(t_label) ;;
          let st1 := if (blk : bool) then st else with_checks st (w_off w :: st.(s_checks)) in
          ep_loop f P st1 later (set_pc t (t.(t_pc) + 1)) off
    | OpLabel =>
        me <- get_mend st (w_off w) ;;
        if me <=? t.(t_start) then
          ep_loop f P st later
            (mkT (t.(t_pc) + 1) t.(t_start) t.(t_end) (w_off w) t.(t_lead)) off
        else Ok (st, later, None)
    | OpMatch =>
        blk <- (if st.(s_liveno) then Ok true else find_live P st t.(t_label)) ;;
        ep_loop f P st later
          (mkT (t.(t_pc) + 1) t.(t_start) off t.(t_label) (negb blk)) off
    | OpHalt => Ok (st, later, None)
    | _ => Ok (st, later, Some t)
    end
  end.

(** vm.cpp:402-433 (_executeEpSequence) *)
Definition ep_seq (fuel : nat) (P : program) (st : vmst) (later : list thread) (t : thread)
  (off : N) : res (vmst * list thread * option thread) :=
  ov <- overlapped st t ;;
  if (ov : bool) then Ok (st, later, None) else ep_loop fuel P st later t off.

(** vm.cpp:383-399 (_executeThread) *)
Definition exec_thread (fuel : nat) (P : program) (st : vmst) (later : list thread)
  (t : thread) (b off : N) : res (vmst * list thread) :=
  ot <- exec_byte P t b ;;
  match ot with
  | None => Ok (st, later)
  | Some t1 =>
      '(st1, later1, ot2) <- ep_seq fuel P st later t1 off ;;
      match ot2 with
      | None => Ok (st1, later1)
      | Some t2 => st2 <- push_next P st1 t2 ;; Ok (st2, later1)
      end
  end.

(** The loop over Active, vm.cpp:462-465, 479-482, 452-455, 544-546, 634-637.  [n] bounds
    the number of threads left, which killing does not change. *)
Fixpoint run_list (n : nat) (fuel : nat) (P : program) (st : vmst) (l : list thread) (b off : N)
  : res vmst :=
  match l with
  | [] => Ok st
  | t :: later =>
      match n with
      | O => Fuel
      | S n' =>
          '(st1, later1) <- exec_thread fuel P st later t b off ;;
          run_list n' fuel P st1 later1 b off
      end
  end.

Definition run_threads fuel P st l b off := run_list (length l) fuel P st l b off.

(** vm.cpp:435-450: a new thread for each thread of First. *)
Definition new_threads (first : list nat) (off : N) : list thread :=
  map (fun pc => mkT pc off NONE NOLABEL false) first.

(** vm.cpp:458-489 (_executeFrame, both).  [new]: whether new threads are started. *)
Definition exec_frame (fuel : nat) (P : program) (first : list nat) (st : vmst) (new : bool)
  (b off : N) : res vmst :=
  st1 <- run_threads fuel P st st.(s_active) b off ;;
  if new then run_threads fuel P st1 (new_threads first off) b off else Ok st1.

(** vm.cpp:491-499 (_cleanup) *)
Definition cleanup (st : vmst) : vmst :=
  mkSt st.(s_next) [] [] false [] st.(s_mends) st.(s_mmax) st.(s_cb) st.(s_hits).

(** vm.cpp:468: the filter bit of the two bytes at cur+FilterOff. *)
Definition filter_pass (P : program) (buf : list N) : res bool :=
  lo <- get buf (N.to_nat P.(p_filterOff)) ;;
  hi <- get buf (N.to_nat P.(p_filterOff) + 1) ;;
  Ok (N.testbit P.(p_filter) (lo + 256 * hi)).

(** vm.cpp:585-612: both loops of search.  [buf] is what remains from [cur] on, so
    [cur < filterEnd] is [FilterOff + 1 < length buf]; it stays false once false. *)
Fixpoint search_loop (fuel : nat) (P : program) (first : list nat) (st : vmst)
  (buf : list N) (off : N) : res (vmst * N) :=
  match buf with
  | [] => Ok (st, off)
  | b :: rest =>
      new <- (if P.(p_filterOff) + 1 <? N.of_nat (length buf) then filter_pass P buf else Ok true) ;;
      st1 <- exec_frame fuel P first st new b off ;;
      search_loop fuel P first (cleanup st1) rest ((off + 1) mod two64)
  end.

Definition is_dead_op (w : N) : bool :=
  match w_op w with OpHalt => true | OpFinish => true | _ => false end.

(** vm.cpp:561-573 (_startOfLeftmostLiveThread) *)
Fixpoint leftmost_live (P : program) (l : list thread) (off : N) : res N :=
  match l with
  | [] => Ok off
  | t :: r => w <- fetch P t.(t_pc) ;;
              if is_dead_op w then leftmost_live P r off else Ok t.(t_start)
  end.

(** vm.cpp:575-618 (search) *)
Definition search (fuel : nat) (P : program) (first : list nat) (st : vmst) (buf : list N)
  (start : N) (cb : bool) : res (vmst * N) :=
  '(st1, off) <- search_loop fuel P first (with_cb st cb) buf start ;;
  r <- leftmost_live P st1.(s_active) off ;; Ok (st1, r).

(** vm.cpp:634-637, with the flag computed along the way *)
Fixpoint run_resolve (n fuel : nat) (P : program) (st : vmst) (l : list thread) (b off : N)
  (had : bool) : res (vmst * bool) :=
  match l with
  | [] => Ok (st, had)
  | t :: later =>
      match n with
      | O => Fuel
      | S n' =>
          w <- fetch P t.(t_pc) ;;
          '(st1, later1) <- exec_thread fuel P st later t b off ;;
          run_resolve n' fuel P st1 later1 b off (had || negb (is_dead_op w))
      end
  end.

(** vm.cpp:628-644 *)
Fixpoint resolve_loop (fuel : nat) (P : program) (st : vmst) (buf : list N) (off : N)
  (had : bool) : res (vmst * N) :=
  match buf with
  | [] => Ok (st, off)
  | b :: rest =>
      match st.(s_active) with
      | [] => Ok (st, off)
      | _ =>
        if had then
          '(st1, had1) <- run_resolve (length st.(s_active)) fuel P st st.(s_active) b off false ;;
          resolve_loop fuel P (cleanup st1) rest ((off + 1) mod two64) had1
        else Ok (st, off)
      end
  end.

(** vm.cpp:620-650 (searchResolve) *)
Definition search_resolve (fuel : nat) (P : program) (st : vmst) (buf : list N) (start : N)
  (cb : bool) : res (vmst * N) :=
  '(st1, off) <- resolve_loop fuel P (with_cb st cb) buf start true ;;
  r <- leftmost_live P st1.(s_active) off ;; Ok (st1, r).

(** vm.cpp:662-674 *)
Fixpoint close_loop (P : program) (st : vmst) (l : list thread) : res vmst :=
  match l with
  | [] => Ok st
  | t :: r =>
      w <- fetch P t.(t_pc) ;;
      match w_op w with
      | OpFinish =>
          me <- get_mend st t.(t_label) ;;
          if me <=? t.(t_start) then
            let e1 := (t.(t_end) + 1) mod two64 in
            mends' <- set_at st.(s_mends) (N.to_nat t.(t_label)) e1 ;;
            close_loop P (emit (with_mends st mends' st.(s_mmax)) (mkHit t.(t_start) e1 t.(t_label))) r
          else close_loop P st r
      | _ => close_loop P st r
      end
  end.

(** vm.cpp:652-686 (closeOut) *)
Definition close_out (P : program) (st : vmst) (cb : bool) : res vmst :=
  let st1 := with_cb st cb in
  if cb then close_loop P st1 st1.(s_active) else Ok st1.

(** vm.cpp:162-179 (reset).  [s_hits] is a record of past calls, not part of the object. *)
Definition reset (st : vmst) : vmst :=
  mkSt [] [] [] false [] (repeat 0 (length st.(s_mends))) 0 false st.(s_hits).

(** vm.cpp:119-160 (constructor): the state before [reset] and First. *)
Definition vm_init (fuel : nat) (P : program) : res (list nat * vmst) :=
  _ <- get P.(p_words) (length P.(p_words) - 2) ;;   (* address of the last but one instruction *)
  let n := N.to_nat ((P.(p_maxLabel) + 1) mod two32) in
  let st0 := mkSt [] [] [] false [] (repeat 0 n) 0 false [] in
  '(st1, _, ot) <- ep_seq fuel P st0 [] (mkT 0 0 NONE NOLABEL false) 0 ;;
  let nx := match ot with Some t => st1.(s_next) ++ [t] | None => st1.(s_next) end in
  Ok (map t_pc nx, reset st1).

(** vm.cpp:543-554 *)
Fixpoint starts_loop (fuel : nat) (P : program) (st : vmst) (buf : list N) (off : N) : res vmst :=
  match buf with
  | [] => Ok st
  | b :: rest =>
      st1 <- run_threads fuel P st st.(s_active) b off ;;
      let st2 := cleanup st1 in
      match st2.(s_active) with
      | [] => Ok st2
      | _ => starts_loop fuel P st2 rest ((off + 1) mod two64)
      end
  end.

(** vm.cpp:528-559 (startsWith).  [filterOff < end - 1] is [FilterOff + 1 < length buf]. *)
Definition starts_with (fuel : nat) (P : program) (first : list nat) (st : vmst) (buf : list N)
  (start : N) (cb : bool) : res vmst :=
  let st0 := with_cb st cb in
  go <- (if (length buf =? 1)%nat then Ok true
         else if P.(p_filterOff) + 1 <? N.of_nat (length buf) then filter_pass P buf
         else Ok false) ;;
  if (go : bool) then
    st1 <- starts_loop fuel P (with_active st0 (st0.(s_active) ++ new_threads first start)) buf start ;;
    st2 <- close_out P st1 cb ;;
    Ok (reset st2)
  else Ok st0.

(** One call of the C API on a context, src/lib/lightgrep_c_api.cpp (lg_search,
    lg_search_resolve, lg_closeout_search, lg_starts_with, lg_reset_context).
    The value returned is 0 for the calls that return nothing. *)
Inductive call :=
| CSearch (buf : list N) (start : N) (cb : bool)
| CResolve (buf : list N) (start : N) (cb : bool)
| CClose (cb : bool)
| CStarts (buf : list N) (start : N) (cb : bool)
| CReset.

Definition vm_call (fuel : nat) (P : program) (first : list nat) (st : vmst) (c : call)
  : res (vmst * N) :=
  match c with
  | CSearch b s cb => search fuel P first st b s cb
  | CResolve b s cb => search_resolve fuel P st b s cb
  | CClose cb => st' <- close_out P st cb ;; Ok (st', 0)
  | CStarts b s cb => st' <- starts_with fuel P first st b s cb ;; Ok (st', 0)
  | CReset => Ok (reset st, 0)
  end.

Fixpoint vm_calls (fuel : nat) (P : program) (first : list nat) (st : vmst) (cs : list call)
  : res (vmst * list N) :=
  match cs with
  | [] => Ok (st, [])
  | c :: r =>
      '(st1, v) <- vm_call fuel P first st c ;;
      '(st2, vs) <- vm_calls fuel P first st1 r ;;
      Ok (st2, v :: vs)
  end.

(** A whole session on a new context: the hits reported and the values returned. *)
Definition session (fuel : nat) (P : program) (cs : list call) : res (list hit * list N) :=
  '(first, st) <- vm_init fuel P ;;
  '(st', vs) <- vm_calls fuel P first st cs ;;
  Ok (st'.(s_hits), vs).
