(** Specification of searching: an idealised engine without locks, kills, filter or
    per-keyword state, and leftmost selection of non-overlapping matches. *)
From Verif Require Import Base VmModel.
Open Scope N_scope.

(** The ordered threads into which a thread expands without reading a byte. *)
Fixpoint ileaves (fuel : nat) (P : program) (t : thread) (off : N) : list thread :=
  match fuel with
  | O => []
  | S f =>
    match nth_error P.(p_words) t.(t_pc) with
    | None => []
    | Some w =>
      match w_op w with
      | OpFork =>
          ileaves f P (set_pc t (t.(t_pc) + 2)) off ++
          match nth_error P.(p_words) (t.(t_pc) + 1) with
          | Some a => ileaves f P (set_pc t (N.to_nat a)) off
          | None => []
          end
      | OpJump =>
          match nth_error P.(p_words) (t.(t_pc) + 1) with
          | Some a => ileaves f P (set_pc t (N.to_nat a)) off
          | None => []
          end
      | OpCheckHalt => ileaves f P (set_pc t (t.(t_pc) + 1)) off
      | OpLabel => ileaves f P (mkT (t.(t_pc) + 1) t.(t_start) t.(t_end) (w_off w) t.(t_lead)) off
      | OpMatch => ileaves f P (mkT (t.(t_pc) + 1) t.(t_start) off t.(t_label) false) off
      | OpHalt => []
      | _ => [t]
      end
    end
  end.

Definition is_fin (P : program) (pc : nat) : bool :=
  match nth_error P.(p_words) pc with
  | Some w => match w_op w with OpFinish => true | _ => false end
  | None => false
  end.

(** Threads after reading byte [b] at offset [off]. *)
Definition istep (fuel : nat) (P : program) (t : thread) (b off : N) : list thread :=
  match exec_byte P t b with
  | Ok (Some t1) => ileaves fuel P t1 off
  | _ => []
  end.

(** All matches of keyword [l] that thread [t] reaches on the bytes [w] from offset [off],
    in order of preference: (start, end) pairs. *)
Fixpoint fut (fuel : nat) (P : program) (l : N) (w : list N) (off : N) (t : thread)
  : list (N * N) :=
  if is_fin P t.(t_pc) then
    (if t.(t_label) =? l then [(t.(t_start), t.(t_end) + 1)] else [])
  else
    match w with
    | [] => []
    | b :: w' => flat_map (fut fuel P l w' (off + 1)) (istep fuel P t b off)
    end.

(** All matches of keyword [l] in a stream, by start, then by preference. *)
Fixpoint all_matches (fuel : nat) (P : program) (first : list nat) (l : N) (w : list N) (off : N)
  : list (N * N) :=
  match w with
  | [] => []
  | b :: w' => flat_map (fut fuel P l w off) (new_threads first off)
               ++ all_matches fuel P first l w' (off + 1)
  end.

(** Leftmost selection: take the first match starting at or after [me], continue after it. *)
Fixpoint greedy (me : N) (ms : list (N * N)) : list (N * N) :=
  match ms with
  | [] => []
  | (s, e) :: r => if me <=? s then (s, e) :: greedy e r else greedy me r
  end.

(** Well-formed programs: a static annotation of the program counters that can be
    reached, giving the keyword a thread there is committed to ([a_lab]), whether threads
    not yet committed may come there as well ([a_any], as in a loop through a LABEL),
    whether MATCH has just been executed on the way ([a_m]) and a measure that decreases
    along instructions that read no byte ([a_rk]). *)
Record ann := mkA { a_lab : N; a_any : bool; a_m : bool; a_rk : nat }.

Definition lab_arr (a : ann) (lab : N) : Prop :=
  a.(a_lab) = lab \/ (a.(a_any) = true /\ lab = NOLABEL).

Definition lab_ok (P : program) (l : N) : Prop := l = NOLABEL \/ l <= P.(p_maxLabel).

Definition is_halt (P : program) (pc : nat) : bool :=
  match nth_error P.(p_words) pc with
  | Some w => match w_op w with OpHalt => true | _ => false end
  | None => false
  end.

(** A thread with label [lab] and match flag [m] may arrive at [pc]. *)
Definition arrive (P : program) (A : nat -> option ann) (lab : N) (m : bool) (pc : nat) : Prop :=
  exists a, A pc = Some a /\
    (a.(a_m) = true -> m = true) /\
    (if is_fin P pc then lab <= P.(p_maxLabel)
     else is_halt P pc = true \/ lab_arr a lab).

Definition arrive_lt P A lab m (rk : nat) pc : Prop :=
  arrive P A lab m pc /\ forall a, A pc = Some a -> (a.(a_rk) < rk)%nat.

(** Arrival of every thread that may be at an instruction annotated [a]. *)
Definition arrive_all P A (a : ann) m pc : Prop :=
  forall lab, lab_arr a lab -> arrive P A lab m pc.

Definition instr_ok (P : program) (A : nat -> option ann) (pc : nat) (a : ann) (w : N) : Prop :=
  match w_op w with
  | OpJumpTable =>
      forall b, w_first w <= b -> b <= w_last w ->
        exists x, nth_error P.(p_words) (pc + 1 + N.to_nat (b - w_first w)) = Some x /\
          (x = 0 \/ arrive_all P A a false (N.to_nat x))
  | OpByte | OpEither | OpRange | OpAny => arrive_all P A a false (pc + 1)
  | OpBitVector =>
      (pc + 9 <= length P.(p_words))%nat /\ arrive_all P A a false (pc + 9)
  | OpFinish => a.(a_m) = true
  | OpFork => a.(a_any) = false /\
      arrive_lt P A a.(a_lab) a.(a_m) a.(a_rk) (pc + 2) /\
      exists x, nth_error P.(p_words) (pc + 1) = Some x /\
        arrive_lt P A a.(a_lab) a.(a_m) a.(a_rk) (N.to_nat x)
  | OpJump => a.(a_any) = false /\
      exists x, nth_error P.(p_words) (pc + 1) = Some x /\
        arrive_lt P A a.(a_lab) a.(a_m) a.(a_rk) (N.to_nat x)
  | OpCheckHalt => a.(a_any) = false /\ w_off w <= P.(p_maxCheck) /\ arrive_lt P A a.(a_lab) a.(a_m) a.(a_rk) (pc + 1)
  | OpLabel => (a.(a_lab) = NOLABEL \/ a.(a_lab) = w_off w) /\ w_off w <= P.(p_maxLabel) /\
               arrive_lt P A (w_off w) a.(a_m) a.(a_rk) (pc + 1)
  | OpMatch => a.(a_any) = false /\ a.(a_lab) <> NOLABEL /\ arrive_lt P A a.(a_lab) true a.(a_rk) (pc + 1)
  | OpHalt => True
  | OpOther => False
  end.

Record wf (P : program) (A : nat -> option ann) (F : nat) : Prop := {
  wf_size : (2 <= length P.(p_words))%nat;
  wf_maxLabel : P.(p_maxLabel) + 1 < two32;
  wf_maxCheck : P.(p_maxCheck) + 1 < two32;
  wf_halt : is_halt P (progEnd P) = true;
  wf_instr : forall pc a, A pc = Some a ->
    lab_ok P a.(a_lab) /\ (a.(a_rk) < F)%nat /\
    exists w, nth_error P.(p_words) pc = Some w /\ instr_ok P A pc a w;
  wf_checks : forall pc1 pc2 a1 a2 w1 w2,
    A pc1 = Some a1 -> A pc2 = Some a2 ->
    nth_error P.(p_words) pc1 = Some w1 -> nth_error P.(p_words) pc2 = Some w2 ->
    w_op w1 = OpCheckHalt -> w_op w2 = OpCheckHalt -> w_off w1 = w_off w2 -> pc1 = pc2
}.

(** Strings of bytes. *)
Definition bytes (w : list N) : Prop := Forall (fun b => b < 256) w.

(** The filter is sound: if it rejects a position, no keyword matches there. *)
Definition filter_sound (F : nat) (P : program) (first : list nat) : Prop :=
  forall w off l, bytes w -> P.(p_filterOff) + 1 < N.of_nat (length w) ->
    filter_pass P w = Ok false ->
    flat_map (fut F P l w off) (new_threads first off) = [].
