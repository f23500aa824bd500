(** The automaton: transitions (include/states.h), vertices (include/automata.h) and the
    graph (include/graph.h) with ordered lists of neighbours.

    Simplifications:
    - a graph is a list of vertices, each with its ordered list of successors and of
      predecessors; that Graph and VectorFamily, which store edge descriptors, behave like
      this is the subject of C38;
    - a ByteSet is a number below 2^256, bit b of it standing for byte b (C22);
    - Transition objects are values; TransitionFactory's sharing of equal ones is not
      visible through the interface used here. *)
From Verif Require Import Base InstrModel.
Open Scope N_scope.

(** states.h:27-32 and the data members of the four classes. *)
Inductive trans :=
| TByte (b : N)
| TEither (b1 b2 : N)
| TRange (first last : N)
| TSet (s : N).

(** states.h:39, 73, 109, 156: [allowed] on the byte at [beg]. *)
Definition allowed (t : trans) (b : N) : bool :=
  match t with
  | TByte x => b =? x
  | TEither x y => (b =? x) || (b =? y)
  | TRange f l => (f <=? b) && (b <=? l)
  | TSet s => N.testbit s b
  end.

(** byteset.h:57-79, ByteSet::set(beg, end, true): sets the bits of [beg,end). *)
Definition bits_between (beg end_ : N) : N := N.shiftl (N.ones (end_ - beg)) beg.

(** states.h:43-46, 77-81, 113-115, 160-163: the bytes a transition adds to a set; also
    transition.h:33-36 (getBytes), which starts from the empty set. *)
Definition bytes_of (t : trans) : N :=
  match t with
  | TByte x => N.setbit 0 x
  | TEither x y => N.setbit (N.setbit 0 x) y
  | TRange f l => bits_between f (l + 1)
  | TSet s => s
  end.

(** states.h:54, 90, 124, 172 *)
Definition numInstructions (t : trans) : N := match t with TSet _ => 9 | _ => 1 end.

(** Eight 32-bit words of a bitset<256>, least significant first (little endian). *)
Definition set_words (s : N) : list N :=
  map (fun i => N.land (N.shiftr s (32 * N.of_nat i)) (N.ones 32)) (seq 0 8).

(** states.cpp:46-49, 61-64, 77-80, 92-97 (toInstruction): the words written. *)
Definition toInstruction (t : trans) : res (list N) :=
  match t with
  | TByte b => Ok [makeByte b false]
  | TEither b1 b2 => Ok [makeEither b1 b2 false]
  | TRange f l =>
      if (f =? 0) && (l =? 255) then Ok [makeAny] else w <- makeRange f l false ;; Ok [w]
  | TSet s => Ok (makeBitVector :: set_words s)
  end.

(** automata.h:33-43 (Glushkov) with the In and Out lists of graph.h:62-68. *)
Record vertex := mkV {
  v_trans : option trans;
  v_match : bool;
  v_label : N;
  v_out : list nat;
  v_in : list nat
}.

Definition nfa := list vertex.

(** The vertex made by the default constructor, automata.h:36. *)
Definition v_new : vertex := mkV None false 4294967295 [] [].

Definition outs (g : nfa) (v : nat) : list nat :=
  match nth_error g v with Some x => x.(v_out) | None => [] end.

(** The byte read on entering [v]. *)
Definition enters (g : nfa) (v : nat) (b : N) : bool :=
  match nth_error g v with
  | Some x => match x.(v_trans) with Some t => allowed t b | None => false end
  | None => false
  end.
