(** Reading a file in blocks with a background reader.
    src/cmd/reader.cpp:40-66 (FileReader), src/cmd/searchcontroller.cpp:37-83 (searchFile).

    Two threads: the main one runs searchFile, the background one runs the function given to std::async.
    Each step of either copies or reads a single byte, and the two are interleaved in every possible way.
    Simplified: fread stores its bytes in order and ends after [len] bytes or at the end of the file; read
    errors (which throw from future::get) are left out; the clock and the totals printed are left out. *)
From Verif Require Import Base.
Open Scope nat_scope.

(** The background thread: [got] bytes are in buffer [t_buf] so far. *)
Record task := mkTask { t_buf : bool; t_len : nat; t_got : nat; t_done : bool }.

(** Where the main thread is in searchFile. *)
Inductive pc :=
| PStart                            (* line 51, before the first read *)
| PWait                             (* future::get, lines 51 and 69 *)
| PCheck (buf : bool) (n : nat)     (* line 52 *)
| PNext (buf : bool) (n : nat)      (* line 54 *)
| PSearch (buf : bool) (n : nat) (seen : list N) (* lines 57-59; the bytes of the buffer seen by lg_search so far *)
| PLast (buf : bool) (n : nat)      (* lines 74-78 *)
| PDone.

(** [calls]: the lg_search calls made so far, oldest first, as start offset and bytes seen. *)
Record st := mkSt {
  s_pc : pc; s_task : option task; s_rest : list N; s_bufs : bool -> list N; s_next : bool;
  s_off : nat; s_calls : list (nat * list N)
}.

Definition setbuf (b : bool -> list N) (i : bool) (l : list N) : bool -> list N :=
  fun j => if Bool.eqb i j then l else b j.

(** FileReader::read, reader.cpp:52-66: swap, then start reading into Next. [s_next] tells which of the
    two arrays Next is. *)
Definition launch (blockSize : nat) (s : st) (p : pc) : st :=
  let nx := negb (s_next s) in
  mkSt p (Some (mkTask nx blockSize 0 false)) (s_rest s) (s_bufs s) nx (s_off s) (s_calls s).

Inductive step (blockSize : nat) : st -> st -> Prop :=
(* the background thread *)
| SCopy p b len got c rest bufs nx off calls :
    got < len ->
    step blockSize (mkSt p (Some (mkTask b len got false)) (c :: rest) bufs nx off calls)
      (mkSt p (Some (mkTask b len (S got) false)) rest (setbuf bufs b (upd (bufs b) got c)) nx off calls)
| SEnd p b len got rest bufs nx off calls :
    got = len \/ rest = [] ->
    step blockSize (mkSt p (Some (mkTask b len got false)) rest bufs nx off calls)
      (mkSt p (Some (mkTask b len got true)) rest bufs nx off calls)
(* the main thread *)
| SStart s : s_pc s = PStart -> step blockSize s (launch blockSize s PWait)
| SGet b len got rest bufs nx off calls :
    step blockSize (mkSt PWait (Some (mkTask b len got true)) rest bufs nx off calls)
      (mkSt (PCheck b got) None rest bufs nx off calls)
| SCheck b n t rest bufs nx off calls :
    step blockSize (mkSt (PCheck b n) t rest bufs nx off calls)
      (mkSt (match n with O => PLast b n | _ => PNext b n end) t rest bufs nx off calls)
| SNext s b n : s_pc s = PNext b n -> step blockSize s (launch blockSize s (PSearch b n []))
| SByte b n seen c t rest bufs nx off calls :
    length seen < n -> nth_error (bufs b) (length seen) = Some c ->
    step blockSize (mkSt (PSearch b n seen) t rest bufs nx off calls)
      (mkSt (PSearch b n (seen ++ [c])) t rest bufs nx off calls)
| SSearched b n seen t rest bufs nx off calls :
    length seen = n ->
    step blockSize (mkSt (PSearch b n seen) t rest bufs nx off calls)
      (mkSt PWait t rest bufs nx (off + n) (calls ++ [(off, seen)]))
| SLast b n t rest bufs nx off calls :
    step blockSize (mkSt (PLast b n) t rest bufs nx off calls)
      (mkSt PDone t rest bufs nx (off + n) (calls ++ [(off, firstn n (bufs b))])).

Inductive steps (blockSize : nat) : st -> st -> Prop :=
| steps_refl s : steps blockSize s s
| steps_step s t u : steps blockSize s t -> step blockSize t u -> steps blockSize s u.

(** The state searchFile starts in, with whatever the new arrays of [blockSize] bytes hold. *)
Definition start_state (file : list N) (bufs : bool -> list N) : st := mkSt PStart None file bufs false 0 [].

(** MemoryMappedFileReader::read, reader.cpp:76-82, and searchFile with it; [fuel] bounds the loop. *)
Fixpoint mapped_calls (fuel : nat) (blockSize : nat) (rest : list N) (off : nat) : list (nat * list N) :=
  match fuel with
  | O => []
  | S f =>
      let n := Nat.min blockSize (length rest) in
      match n with
      | O => [(off, [])]
      | _ => (off, firstn n rest) :: mapped_calls f blockSize (skipn n rest) (off + n)
      end
  end.
