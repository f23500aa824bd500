(** C40: adding a list of patterns. *)
From Verif Require Import Base ListModel.
Open Scope N_scope.

(** * Splitting: what the pieces are, and that the pieces of a joined text are the pieces joined. *)
Lemma tokens_go_pieces sep s : forall cur, Forall (fun c => sep c = false) cur ->
  Forall (fun t => t <> [] /\ Forall (fun c => sep c = false) t) (tokens_go sep cur s) /\
  concat (tokens_go sep cur s) = cur ++ filter (fun c => negb (sep c)) s.
Proof.
  induction s as [|c s IH]; intros cur F; cbn [tokens_go filter].
  - rewrite app_nil_r. destruct cur; cbn [concat]; [split; auto|]. rewrite app_nil_r. split; auto. constructor; auto. split; auto. discriminate.
  - destruct (sep c) eqn:E; cbn [negb].
    + destruct (IH [] ltac:(constructor)) as [A B]. destruct cur as [|x cur]; [auto|]. cbn [concat]. rewrite B. split; auto. constructor; auto. split; auto. discriminate.
    + destruct (IH (cur ++ [c])) as [A B]; [apply Forall_app; auto|]. split; auto. rewrite B, <- app_assoc. auto.
Qed.

Fixpoint join (sep : N) (l : list (list N)) : list N :=
  match l with [] => [] | [x] => x | x :: t => x ++ sep :: join sep t end.

Lemma tokens_go_word sep w : Forall (fun c => sep c = false) w -> forall cur r,
  tokens_go sep cur (w ++ r) = tokens_go sep (cur ++ w) r.
Proof.
  induction 1 as [|c w Hc F IH]; intros cur r; cbn [app tokens_go]; [rewrite app_nil_r; auto|]. rewrite Hc, IH, <- app_assoc. auto.
Qed.

Theorem list_pieces sep :
  (forall s, Forall (fun t => t <> [] /\ Forall (fun c => sep c = false) t) (tokens sep s) /\ concat (tokens sep s) = filter (fun c => negb (sep c)) s) /\
  (forall c l, sep c = true -> Forall (fun t => t <> [] /\ Forall (fun c => sep c = false) t) l -> tokens sep (join c l) = l).
Proof.
  split; [intros s; apply (tokens_go_pieces sep s []); constructor|].
  intros c l Hc F. unfold tokens. induction F as [|x l [Nx Fx] F IH]; [reflexivity|]. destruct l as [|y l]; cbn [join].
  - rewrite <- (app_nil_r x) at 1. rewrite tokens_go_word by auto. destruct x; [congruence|]. reflexivity.
  - rewrite tokens_go_word by auto. cbn [app tokens_go]. rewrite Hc. destruct x; [congruence|]. cbn [app]. f_equal. exact IH.
Qed.
Print Assumptions list_pieces.

(** * What a line asks for, read off its columns. *)
Inductive request := NoPattern | NoEncodings | Wanted (pat : list N) (o : opts) (encs : list (list N)) | BadOption.

Definition column (l : list (list N)) (i : nat) : option (list N) := nth_error l i.
Definition option_of (e : env) (l : list (list N)) (i : nat) (dflt : bool) : option bool :=
  match column l i with None => Some dflt | Some s => e_bool e s end.
Definition request_of (e : env) (line : list N) : request :=
  let cols := tokens is_tab line in
  match column cols 0 with
  | None => NoPattern
  | Some pat =>
      match column cols 1 with
      | None => Wanted pat (e_opts e) (e_encs e)
      | Some el =>
          match tokens is_comma el with
          | [] => NoEncodings
          | encs =>
              match option_of e cols 2 (o_fixed (e_opts e)), option_of e cols 3 (o_nocase (e_opts e)), option_of e cols 4 (o_unicode (e_opts e)) with
              | Some a, Some b, Some c => Wanted pat (mkOpts a b c) encs
              | _, _, _ => BadOption
              end
          end
      end
  end.

(** The additions and the errors which a line should lead to. *)
Definition additions (e : env) (n : Z) (r : request) : list (list N * opts * list N * Z) :=
  match r with
  | Wanted pat o encs => if e_parses e pat o then map (fun x => (pat, o, x, n)) (filter (fun x => e_adds e pat o x) encs) else []
  | _ => []
  end.
Definition failures (e : env) (n : Z) (r : request) : list Z :=
  match r with
  | Wanted pat o encs => if e_parses e pat o then map (fun _ => n) (filter (fun x => negb (e_adds e pat o x)) encs) else [n]
  | _ => [n]
  end.
Fixpoint numbered (n : Z) (l : list (list N)) : list (Z * list N) :=
  match l with [] => [] | x :: t => (n, x) :: numbered (n + 1)%Z t end.

Lemma add_encs_spec e pat o encs n : forall a,
  add_encs e pat o encs n a = mkAcc (a_added a ++ map (fun x => (pat, o, x, n)) (filter (fun x => e_adds e pat o x) encs))
                                    (a_errs a ++ map (fun _ => n) (filter (fun x => negb (e_adds e pat o x)) encs)).
Proof.
  induction encs as [|x encs IH]; intros a; cbn [add_encs filter map]; [rewrite !app_nil_r; destruct a; auto|].
  destruct (e_adds e pat o x); cbn [negb]; rewrite IH; cbn [a_added a_errs map]; rewrite <- !app_assoc; auto.
Qed.

Lemma add_line_spec e line n a :
  add_line e true line n a =
    match request_of e line with
    | BadOption => Throw
    | r => Ok (mkAcc (a_added a ++ additions e n r) (a_errs a ++ failures e n r))
    end.
Proof.
  unfold add_line, request_of, column, option_of, column, helper. destruct (tokens is_tab line) as [|pat [|el rest]]; cbn [nth_error additions failures].
  - rewrite app_nil_r. auto.
  - destruct (e_parses e pat (e_opts e)); [rewrite add_encs_spec; auto|rewrite app_nil_r; auto].
  - destruct (tokens is_comma el) as [|e1 es] eqn:Ee; cbn [additions failures]; [rewrite app_nil_r; auto|].
    assert (K : forall o, (if e_parses e pat o then Ok (add_encs e pat o (e1 :: es) n a) else Ok (mkAcc (a_added a) (a_errs a ++ [n]))) =
      Ok (mkAcc (a_added a ++ additions e n (Wanted pat o (e1 :: es))) (a_errs a ++ failures e n (Wanted pat o (e1 :: es))))).
    { intros o. cbn [additions failures]. destruct (e_parses e pat o); [rewrite add_encs_spec; auto|rewrite app_nil_r; auto]. }
    destruct rest as [|f [|c [|u rest]]]; cbn [nth_error bind].
    + destruct (e_opts e) as [x1 x2 x3] eqn:Eo. cbn [o_fixed o_nocase o_unicode]. rewrite K. auto.
    + destruct (e_bool e f) as [fb|]; cbn [bind]; auto; rewrite K; auto.
    + destruct (e_bool e f) as [fb|]; cbn [bind]; auto. destruct (e_bool e c) as [cb|]; cbn [bind]; auto; rewrite K; auto.
    + destruct (e_bool e f) as [fb|]; cbn [bind]; auto. destruct (e_bool e c) as [cb|]; cbn [bind]; auto. destruct (e_bool e u) as [ub|]; cbn [bind]; auto; rewrite K; auto.
Qed.

(** With an error slot and readable option columns, exactly the pairs that can be added are added, in
    order, and the error list names exactly the lines of the others, in order. But the value returned is
    -1, whatever happened. *)
Theorem list_errors_exact e text :
  Forall (fun l => request_of e l <> BadOption) (tokens is_eol text) ->
  lg_add_pattern_list e true text =
    Ok (mkAcc (flat_map (fun nl => additions e (fst nl) (request_of e (snd nl))) (numbered 0 (tokens is_eol text)))
              (flat_map (fun nl => failures e (fst nl) (request_of e (snd nl))) (numbered 0 (tokens is_eol text))), (-1)%Z).
Proof.
  unfold lg_add_pattern_list. generalize 0%Z. intros n. generalize (tokens is_eol text). clear text. intros ts F.
  enough (G : forall a n, add_lines e true ts n a =
    Ok (mkAcc (a_added a ++ flat_map (fun nl => additions e (fst nl) (request_of e (snd nl))) (numbered n ts))
              (a_errs a ++ flat_map (fun nl => failures e (fst nl) (request_of e (snd nl))) (numbered n ts)), (-1)%Z)) by (apply (G (mkAcc [] []))).
  clear n. induction F as [|l ls Hl F IH]; intros a n; cbn [add_lines numbered flat_map fst snd]; [rewrite !app_nil_r; destruct a; auto|].
  rewrite add_line_spec. destruct (request_of e l) eqn:E; try congruence; cbv iota beta zeta; rewrite IH; cbn [a_added a_errs]; rewrite <- !app_assoc; auto.
Qed.
Print Assumptions list_errors_exact.

(** An option column that is no boolean ends it: the lines after are not added, and the errors found before
    are lost. *)
Theorem list_bad_option e text ls1 bad ls2 :
  tokens is_eol text = ls1 ++ bad :: ls2 -> Forall (fun l => request_of e l <> BadOption) ls1 -> request_of e bad = BadOption ->
  lg_add_pattern_list e true text =
    Ok (mkAcc (flat_map (fun nl => additions e (fst nl) (request_of e (snd nl))) (numbered 0 ls1)) [(-1)%Z], (-1)%Z).
Proof.
  unfold lg_add_pattern_list. intros -> F B.
  enough (G : forall a n, add_lines e true (ls1 ++ bad :: ls2) n a =
    Ok (mkAcc (a_added a ++ flat_map (fun nl => additions e (fst nl) (request_of e (snd nl))) (numbered n ls1)) [(-1)%Z], (-1)%Z)) by (apply (G (mkAcc [] []))).
  induction F as [|l ls Hl F IH]; intros a n; cbn [app add_lines numbered flat_map fst snd].
  - rewrite add_line_spec, B; cbv iota beta zeta; rewrite app_nil_r. auto.
  - rewrite add_line_spec. destruct (request_of e l) eqn:E; try congruence; cbv iota beta zeta; rewrite IH; cbn [a_added a_errs]; rewrite <- !app_assoc; auto.
Qed.
Print Assumptions list_bad_option.

(** So a list of which everything was added is reported as a failure... *)
Theorem list_success_refuted e text : exists a, lg_add_pattern_list e true text = Ok (a, (-1)%Z).
Proof.
  unfold lg_add_pattern_list. generalize (mkAcc [] []) 0%Z. induction (tokens is_eol text) as [|l ls IH]; intros a n; cbn [add_lines]; [eauto|].
  rewrite add_line_spec. destruct (request_of e l); cbv iota beta zeta; auto. eauto.
Qed.
Print Assumptions list_success_refuted.

(** ... and without an error slot a list with at least one pattern cannot be added at all. *)
Theorem list_without_slot_refuted e text l :
  hd_error (tokens is_eol text) = Some l -> (exists pat o encs, request_of e l = Wanted pat o encs) -> lg_add_pattern_list e false text = UB.
Proof.
  unfold lg_add_pattern_list. destruct (tokens is_eol text) as [|l' ls]; cbn [hd_error]; [discriminate|]. intros E (pat & o & encs & R). injection E as ->. cbn [add_lines].
  replace (add_line e false l 0 (mkAcc [] [])) with (@UB acc); auto. symmetry. revert R.
  unfold add_line, request_of, column, option_of, column, helper. destruct (tokens is_tab l) as [|p [|el rest]]; cbn [nth_error]; [discriminate|auto|].
  destruct (tokens is_comma el); [discriminate|]. destruct rest as [|f [|c [|u rest]]]; cbn [nth_error bind]; auto;
    destruct (e_bool e f); cbn [bind]; auto; try discriminate; destruct (e_bool e c); cbn [bind]; auto; try discriminate; destruct (e_bool e u); cbn [bind]; auto; discriminate.
Qed.
Print Assumptions list_without_slot_refuted.

(** Two lines, the second with two encodings of which one fails. *)
Example list_case :
  let e := mkEnv (fun _ _ => true) (fun _ _ x => match x with [85] => false | _ => true end) (fun s => match s with [48] => Some false | [49] => Some true | _ => None end)
             [[65]] (mkOpts false false false) in
  lg_add_pattern_list e true [97; 10; 13; 98; 99; 9; 85; 44; 66; 9; 49] =
    Ok (mkAcc [([97], mkOpts false false false, [65], 0%Z); ([98; 99], mkOpts true false false, [66], 1%Z)] [1%Z], (-1)%Z) /\
  lg_add_pattern_list e true [97; 9; 65; 9; 120; 10; 98] = Ok (mkAcc [] [(-1)%Z], (-1)%Z).
Proof. vm_compute. auto. Qed.
