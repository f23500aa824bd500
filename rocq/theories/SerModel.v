(** Serialised programs: src/lib/program.cpp:31-103, src/lib/pattern_map.cpp:82-136,
    include/program.h:136-142 and src/lib/lightgrep_c_api.cpp:384-449.

    Simplifications:
    - the machine is little-endian and does not trap on unaligned access;
    - a pointer into a buffer is the list of bytes from there on; [UB] when a read needs more
      bytes than there are.  The comparisons with the end pointer are done without wrapping;
    - unmarshall keeps a pointer to the instructions inside the buffer; the model takes the
      words out at once;
    - a C string is its list of bytes without the terminating 0. *)
From Verif Require Import Base VmModel.
Open Scope N_scope.

(** memcpy from an unsigned integer of [k] bytes. *)
Fixpoint le_bytes (k : nat) (n : N) : list N :=
  match k with O => [] | S j => n mod 256 :: le_bytes j (n / 256) end.

(** LG_PatternInfo, include/lightgrep/api.h *)
Record pinfo := mkPI { pi_pattern : list N; pi_chain : list N; pi_user : N }.

(** struct ProgramHandle, handles.h:48-51 *)
Record handle := mkHd { h_pmap : list pinfo; h_prog : program }.

(** PatternMap::bufSize, pattern_map.cpp:102-114.  std::accumulate is started with an int, so the
    running sum is an int that is widened and truncated at each step. *)
Definition to_int (n : N) : N := let t := n mod two32 in if t <? 2147483648 then t else t + two64 - two32.
Definition pmap_bufSize (l : list pinfo) : N :=
  fold_left (fun s p => to_int ((s + N.of_nat (length p.(pi_pattern)) + 1 + N.of_nat (length p.(pi_chain)) + 1 + 8) mod two64)) l 0.

(** PatternMap::marshall, pattern_map.cpp:82-100. *)
Definition pinfo_bytes (p : pinfo) : list N := p.(pi_pattern) ++ [0] ++ p.(pi_chain) ++ [0] ++ le_bytes 8 p.(pi_user).
Definition pmap_marshall (l : list pinfo) : res (list N) :=
  let size := pmap_bufSize l in
  let content := flat_map pinfo_bytes l in
  if 9223372036854775808 <=? size then Throw                      (* std::length_error *)
  else if size <? N.of_nat (length content) then UB               (* memcpy past the end *)
  else Ok (content ++ repeat 0 (N.to_nat size - length content)).

(** program.cpp:48-59: eight bits of the filter in one byte. *)
Definition filter_byte (f b : N) : N :=
  fold_right (fun j a => N.lor (N.shiftl (N.b2n (N.testbit f (8 * b + j))) j) a) 0 [0; 1; 2; 3; 4; 5; 6; 7].
Fixpoint filter_bytes (f b : N) (k : nat) : list N :=
  match k with O => [] | S j => filter_byte f b :: filter_bytes f (b + 1) j end.

Definition filter_size : nat := N.to_nat 8192.

(** Program::bufSize, program.h:139-145. *)
Definition prog_bufSize (p : program) : N := (4 + 4 + 4 + 8192 + N.of_nat (length p.(p_words)) * 4) mod two64.

(** Program::marshall, program.cpp:31-67. *)
Definition prog_marshall (p : program) : list N :=
  le_bytes 4 p.(p_maxLabel) ++ le_bytes 4 p.(p_maxCheck) ++ le_bytes 4 p.(p_filterOff) ++
  filter_bytes p.(p_filter) 0 filter_size ++ flat_map (le_bytes 4) p.(p_words).

(** lg_program_size, lightgrep_c_api.cpp:384-387; the result is an unsigned int. *)
Definition program_size (h : handle) : N := (8 + pmap_bufSize h.(h_pmap) + 8 + prog_bufSize h.(h_prog)) mod two32.

(** write_program, lightgrep_c_api.cpp:390-406: the bytes written. *)
Definition write_program (h : handle) : res (list N) :=
  m <- pmap_marshall h.(h_pmap) ;;
  let p := prog_marshall h.(h_prog) in
  Ok (le_bytes 8 (N.of_nat (length m)) ++ m ++ le_bytes 8 (N.of_nat (length p)) ++ p).

(** Reading an unsigned integer of [k] bytes. *)
Fixpoint rd (k : nat) (s : list N) : res (N * list N) :=
  match k with
  | O => Ok (0, s)
  | S j => match s with [] => UB | b :: t => ' (v, r) <- rd j t ;; Ok (b + 256 * v, r) end
  end.

(** std::strlen and the pointer past the terminating 0. *)
Fixpoint cstr (s : list N) : res (list N * list N) :=
  match s with
  | [] => UB
  | b :: t => if b =? 0 then Ok ([], t) else ' (w, r) <- cstr t ;; Ok (b :: w, r)
  end.

(** PatternMap::unmarshall, pattern_map.cpp:116-136; [len] bytes are left before [end]. *)
Fixpoint pmap_unmarshall (n : nat) (s : list N) (len : nat) : res (list pinfo) :=
  match len with
  | O => Ok []
  | S _ =>
      match n with
      | O => Fuel
      | S k =>
          ' (pat, s1) <- cstr s ;;
          ' (chain, s2) <- cstr s1 ;;
          ' (idx, s3) <- rd 8 s2 ;;
          rest <- pmap_unmarshall k s3 (len - (length s - length s3)) ;;
          Ok (mkPI pat chain idx :: rest)
      end
  end.

(** program.cpp:83-92: the filter, eight bits at a time. *)
Definition bits_of (b : N) (at_ : N) : N :=
  fold_right (fun j a => if N.land b (N.shiftl 1 j) =? 0 then a else N.lor (N.shiftl 1 (8 * at_ + j)) a) 0 [0; 1; 2; 3; 4; 5; 6; 7].
Fixpoint rd_filter (k : nat) (b : N) (s : list N) : res (N * list N) :=
  match k with
  | O => Ok (0, s)
  | S j => match s with
           | [] => UB
           | x :: t => ' (f, r) <- rd_filter j (b + 1) t ;; Ok (N.lor (bits_of x b) f, r)
           end
  end.

Fixpoint rd_words (k : nat) (s : list N) : res (list N) :=
  match k with O => Ok [] | S j => ' (w, t) <- rd 4 s ;; r <- rd_words j t ;; Ok (w :: r) end.

(** Program::unmarshall, program.cpp:69-103; [len] is the size found in the buffer. *)
Definition prog_unmarshall (s : list N) (len : N) : res program :=
  let icount := ((len + two64 - (4 + 4 + 4 + 8192)) mod two64) / 4 in
  ' (ml, s1) <- rd 4 s ;;
  ' (mc, s2) <- rd 4 s1 ;;
  ' (fo, s3) <- rd 4 s2 ;;
  ' (f, s4) <- rd_filter filter_size 0 s3 ;;
  if N.of_nat (length s4) <? 4 * icount then UB
  else w <- rd_words (N.to_nat icount) s4 ;;
       Ok {| p_words := w; p_maxLabel := ml; p_maxCheck := mc; p_filterOff := fo; p_filter := f |}.

(** read_program, lightgrep_c_api.cpp:408-442; None is the null handle. *)
Definition read_program (s : list N) : res (option handle) :=
  if (length s <? 8)%nat then Ok None
  else
    ' (msize, s1) <- rd 8 s ;;
    if N.of_nat (length s1) <? msize then Ok None
    else
      pm <- pmap_unmarshall (N.to_nat msize) s1 (N.to_nat msize) ;;
      let s2 := skipn (N.to_nat msize) s1 in
      if (length s2 <? 8)%nat then Ok None
      else
        ' (psize, s3) <- rd 8 s2 ;;
        if N.of_nat (length s3) <? psize then Ok None
        else p <- prog_unmarshall s3 psize ;; Ok (Some (mkHd pm p)).
