(** Model of SparseSet, include/sparseset.h lines 27-63. *)
From Verif Require Import Base.
Open Scope N_scope.

(** include/sparseset.h:59-62.  [data] is the heap array of 2*Max 32-bit words. *)
Record sset := { data : list N; endp : N; maxp : N }.

(** include/sparseset.h:50-55 (resize).  [garbage] is whatever the fresh heap block
    held; its first half is overwritten with zeros. *)
Definition ss_resize (garbage : list N) (m : N) : sset :=
  {| data := repeat 0 (N.to_nat m) ++ skipn (N.to_nat m) garbage;
     endp := m; maxp := m |}.

(** The same without the zero fill, which the comment on line 53 calls unnecessary. *)
Definition ss_resize_nofill (garbage : list N) (m : N) : sset :=
  {| data := garbage; endp := m; maxp := m |}.

(** include/sparseset.h:31 *)
Definition ss_size (s : sset) : N := (s.(endp) + two32 - s.(maxp)) mod two32.

(** include/sparseset.h:34-37.  The sum is computed modulo 2^32. *)
Definition ss_find (s : sset) (e : N) : res bool :=
  d <- get s.(data) (N.to_nat e) ;;
  let i := (d + s.(maxp)) mod two32 in
  if i <? s.(endp) then
    x <- get s.(data) (N.to_nat i) ;; Ok (x =? e)
  else Ok false.

(** include/sparseset.h:40-44 *)
Definition ss_insert (s : sset) (e : N) : res sset :=
  d1 <- set_at s.(data) (N.to_nat s.(endp)) e ;;
  d2 <- set_at d1 (N.to_nat e) ((s.(endp) + two32 - s.(maxp)) mod two32) ;;
  Ok {| data := d2; endp := (s.(endp) + 1) mod two32; maxp := s.(maxp) |}.

(** include/sparseset.h:46-48 *)
Definition ss_clear (s : sset) : sset :=
  {| data := s.(data); endp := s.(maxp); maxp := s.(maxp) |}.

(** The way the engine uses the set (src/lib/vm.cpp:185-187, 340-347): a value is
    inserted only if it is not found. *)
Definition ss_add (s : sset) (e : N) : res sset :=
  b <- ss_find s e ;; if b then Ok s else ss_insert s e.

Inductive ss_op := SAdd (e : N) | SClear.

Definition ss_step (s : sset) (o : ss_op) : res sset :=
  match o with SAdd e => ss_add s e | SClear => Ok (ss_clear s) end.

Fixpoint ss_run (s : sset) (l : list ss_op) : res sset :=
  match l with [] => Ok s | o :: r => s' <- ss_step s o ;; ss_run s' r end.

(** Specification: the values added since the last clear. *)
Fixpoint since_clear (l : list ss_op) (acc : list N) : list N :=
  match l with
  | [] => acc
  | SAdd e :: r => since_clear r (e :: acc)
  | SClear :: r => since_clear r []
  end.
