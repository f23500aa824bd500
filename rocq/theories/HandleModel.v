(** FSM and program handles and the pattern information they share.
    include/handles.h:43-51, src/lib/pattern_map.cpp:27-74, src/lib/lightgrep_c_api.cpp:131-137 (create_fsm),
    :154-168 (addPattern), :170-204 (lg_add_pattern), :319-341 (counts and infos), :343-365 (create_program).

    Memory holds PatternMaps; handles hold shared pointers to them.  Whether the pattern compiles
    (Impl->addPattern does not throw) and whether create_program succeeds is decided by the environment.
    Out of memory, and changes made through the pointers returned by the info functions, are left out. *)
From Verif Require Import Base.
Open Scope Z_scope.

Record info := mkInfo { i_pattern : list N; i_chain : list N; i_user : N }.

Record world := mkWorld { w_maps : list (list info); w_fsms : list (option nat); w_progs : list (option nat) }.

Inductive op :=
| OCreateFsm
| OAdd (f : nat) (pat enc : list N) (user : N) (compiles : bool)
| OProgram (f : nat) (succeeds : bool)
| OReload (p : nat)              (* lg_write_program, then lg_read_program *)
| ODestroyFsm (f : nat)
| ODestroyProg (p : nat)
| OFsmCount (f : nat)
| OProgCount (p : nat)
| OFsmInfo (f i : nat)
| OProgInfo (p i : nat).

Inductive out := VInt (z : Z) | VHandle (h : option nat) | VInfo (i : info) | VNone.

(** What std::strcpy copies, pattern_map.cpp:55-56. *)
Fixpoint c_str (s : list N) : list N :=
  match s with [] => [] | b :: t => if N.eqb b 0 then [] else b :: c_str t end.

(** A uint32_t assigned from a size_t and then cast to int, lightgrep_c_api.cpp:156, :165. *)
Definition as_label (n : nat) : Z :=
  let u := Z.of_nat n mod 4294967296 in if u <? 2147483648 then u else u - 4294967296.

(** Using a destroyed or unknown handle is undefined. *)
Definition deref (hs : list (option nat)) (h : nat) : res nat :=
  match nth_error hs h with Some (Some m) => Ok m | _ => UB end.

(** shared_ptr::use_count *)
Definition refs (m : nat) (hs : list (option nat)) : nat :=
  length (filter (fun o => match o with Some k => Nat.eqb k m | None => false end) hs).

Definition exec (w : world) (o : op) : res (world * out) :=
  match o with
  | OCreateFsm =>
      Ok (mkWorld (w_maps w ++ [[]]) (w_fsms w ++ [Some (length (w_maps w))]) (w_progs w), VHandle (Some (length (w_fsms w))))
  | OAdd f pat enc user compiles =>
      m <- deref (w_fsms w) f ;;
      pm <- get (w_maps w) m ;;
      if compiles then
        let label := as_label (length pm) in
        let x := mkInfo (c_str pat) (c_str enc) user in
        if (1 <? refs m (w_fsms w) + refs m (w_progs w))%nat then
          (* :161-163 *)
          Ok (mkWorld (w_maps w ++ [pm ++ [x]]) (upd (w_fsms w) f (Some (length (w_maps w)))) (w_progs w), VInt label)
        else Ok (mkWorld (upd (w_maps w) m (pm ++ [x])) (w_fsms w) (w_progs w), VInt label)
      else Ok (w, VInt (-1))
  | OProgram f succeeds =>
      m <- deref (w_fsms w) f ;;
      if succeeds then Ok (mkWorld (w_maps w) (w_fsms w) (w_progs w ++ [Some m]), VHandle (Some (length (w_progs w))))
      else Ok (w, VHandle None)
  | OReload p =>
      m <- deref (w_progs w) p ;;
      pm <- get (w_maps w) m ;;
      Ok (mkWorld (w_maps w ++ [pm]) (w_fsms w) (w_progs w ++ [Some (length (w_maps w))]), VHandle (Some (length (w_progs w))))
  | ODestroyFsm f => _ <- deref (w_fsms w) f ;; Ok (mkWorld (w_maps w) (upd (w_fsms w) f None) (w_progs w), VNone)
  | ODestroyProg p => _ <- deref (w_progs w) p ;; Ok (mkWorld (w_maps w) (w_fsms w) (upd (w_progs w) p None), VNone)
  | OFsmCount f => m <- deref (w_fsms w) f ;; pm <- get (w_maps w) m ;; Ok (w, VInt (Z.of_nat (length pm) mod 4294967296))
  | OProgCount p => m <- deref (w_progs w) p ;; pm <- get (w_maps w) m ;; Ok (w, VInt (Z.of_nat (length pm) mod 4294967296))
  | OFsmInfo f i => m <- deref (w_fsms w) f ;; pm <- get (w_maps w) m ;; x <- get pm i ;; Ok (w, VInfo x)
  | OProgInfo p i => m <- deref (w_progs w) p ;; pm <- get (w_maps w) m ;; x <- get pm i ;; Ok (w, VInfo x)
  end.

Fixpoint run (w : world) (os : list op) : res (list out) :=
  match os with
  | [] => Ok []
  | o :: t => ' (w', v) <- exec w o ;; vs <- run w' t ;; Ok (v :: vs)
  end.
