(** The instructions written for a state, in structured form, with the annotation that
    shows compiled programs well-formed. *)
From Verif Require Import Base InstrModel NfaModel CodegenModel CodegenSpec CodegenLayout CodegenCode.
From Verif Require Import VmModel VmSpec VmIdeal VmGeneric VmCalls VmCheck.
Open Scope N_scope.

(** * Words *)

Lemma w_op_pack op f a b : op < 256 -> w_op (pack op f a b) = decode_opc op.
Proof.
  intros H. unfold w_op, pack. f_equal.
  replace (op + 256 * f + 65536 * a + 16777216 * b) with (op + (f + 256 * a + 65536 * b) * 256) by lia.
  rewrite N.mod_add by discriminate. apply N.mod_small; auto.
Qed.

Lemma w_first_pack op f a b : op < 256 -> f < 256 -> a < 256 -> w_first (pack op f a b) = a.
Proof. intros. unfold w_first, pack. lia. Qed.
Lemma w_last_pack op f a b : op < 256 -> f < 256 -> a < 256 -> b < 256 -> w_last (pack op f a b) = b.
Proof. intros. unfold w_last, pack. lia. Qed.
Lemma w_flags_pack op f a b : op < 256 -> f < 256 -> w_flags (pack op f a b) = f.
Proof. intros. unfold w_flags, pack. lia. Qed.

Lemma makeRaw24_ok v w op : makeRaw24 v = Ok w -> op < 256 ->
  v < two24 /\ w_op (with_opcode w op) = decode_opc op /\ w_off (with_opcode w op) = v.
Proof.
  unfold makeRaw24. destruct (N.leb_spec two24 v); intros H' Ho; [discriminate|]. injection H' as <-.
  unfold with_opcode, w_op, w_off. unfold two24 in *. split; auto.
  replace (12 + 256 * v - (12 + 256 * v) mod 256 + op) with (op + v * 256) by lia.
  rewrite N.mod_add by discriminate. rewrite (N.mod_small op) by auto. split; auto. lia.
Qed.

Lemma makeLabel_ok l w : makeLabel l = Ok w -> l < two24 /\ w_op w = OpLabel /\ w_off w = l.
Proof.
  unfold makeLabel. intros H. inv_bind H. injection H as <-. apply (makeRaw24_ok _ _ 10) in E; [|lia]. exact E.
Qed.

Lemma makeCheck_ok l w : makeCheckHalt l = Ok w -> l < two24 /\ w_op w = OpCheckHalt /\ w_off w = l.
Proof.
  unfold makeCheckHalt. intros H. inv_bind H. injection H as <-. apply (makeRaw24_ok _ _ 9) in E; [|lia]. exact E.
Qed.

Lemma makeJT_ok f l w : makeJumpTableRange f l = Ok w -> f < 256 -> l < 256 ->
  f <= l /\ w_op w = OpJumpTable /\ w_first w = f /\ w_last w = l.
Proof.
  unfold makeJumpTableRange, makeRange. intros H Hf Hl. inv_bind H. injection H as <-.
  destruct (N.ltb_spec l f); [discriminate|]. injection E as <-. split; auto.
  replace (pack 4 0 f l - 4 + 0) with (pack 0 0 f l) by (unfold pack; lia).
  rewrite w_op_pack, w_first_pack, w_last_pack by lia. auto.
Qed.

Lemma set_words_length s : length (set_words s) = 8%nat.
Proof. reflexivity. Qed.

Lemma set_words_nth s i : (i < 8)%nat ->
  nth_error (set_words s) i = Some (N.land (N.shiftr s (32 * N.of_nat i)) (N.ones 32)).
Proof. intros H. do 8 (destruct i as [|i]; [reflexivity|]). lia. Qed.

Definition byte_op (o : opc) : bool :=
  match o with OpByte | OpEither | OpRange | OpAny | OpBitVector => true | _ => false end.

(** The instruction of a transition reads one byte and goes on behind it. *)
Lemma toInstruction_ok t ev : toInstruction t = Ok ev -> trans_ok t ->
  exists w r, ev = w :: r /\ byte_op (w_op w) = true /\
    (length ev = if match w_op w with OpBitVector => true | _ => false end then 9%nat else 1%nat) /\
    forall P th b, seg (p_words P) (t_pc th) ev -> b < 256 ->
      exec_byte P th b = Ok (if allowed t b then Some (set_pc th (t_pc th + length ev)) else None).
Proof.
  intros H Hok. destruct t as [x|x y|f l|s]; simpl in H, Hok.
  - injection H as <-. exists (makeByte x false), []. unfold makeByte. rewrite w_op_pack by lia. simpl. repeat split; auto.
    intros P th b Hs Hb. apply seg_cons in Hs. destruct Hs as (Hs & _). unfold exec_byte, fetch, get. rewrite Hs.
    cbn [bind]. rewrite w_op_pack by lia. simpl. unfold w_negate. rewrite w_first_pack, w_flags_pack by (simpl; lia).
    simpl. rewrite xorb_false_r. destruct (b =? x); auto.
  - injection H as <-. destruct Hok. exists (makeEither x y false), []. unfold makeEither. rewrite w_op_pack by lia. simpl. repeat split; auto.
    intros P th b Hs Hb. apply seg_cons in Hs. destruct Hs as (Hs & _). unfold exec_byte, fetch, get. rewrite Hs.
    cbn [bind]. rewrite w_op_pack by lia. simpl. unfold w_negate. rewrite w_first_pack, w_last_pack, w_flags_pack by (simpl; lia).
    simpl. rewrite xorb_false_r. destruct ((b =? x) || (b =? y)); auto.
  - destruct Hok as (H1 & H2). destruct ((f =? 0) && (l =? 255)) eqn:Ea.
    + injection H as <-. exists makeAny, []. simpl. repeat split; auto.
      intros P th b Hs Hb. apply seg_cons in Hs. destruct Hs as (Hs & _). unfold exec_byte, fetch, get. rewrite Hs.
      cbn [bind]. change (w_op makeAny) with OpAny. cbn iota. 
      replace ((f <=? b) && (b <=? l)) with true; auto. symmetry. apply andb_true_iff in Ea. destruct Ea as (Ea & Eb).
      apply N.eqb_eq in Ea, Eb. subst. apply andb_true_iff. split; apply N.leb_le; lia.
    + inv_bind H. injection H as <-. unfold makeRange in E. destruct (N.ltb_spec l f); [discriminate|]. injection E as <-.
      exists (pack 4 (flag_of false) f l), []. rewrite w_op_pack by lia. simpl. repeat split; auto.
      intros P th b Hs Hb. apply seg_cons in Hs. destruct Hs as (Hs & _). unfold exec_byte, fetch, get. rewrite Hs.
      cbn [bind]. rewrite w_op_pack by lia. simpl. unfold w_negate. rewrite w_first_pack, w_last_pack, w_flags_pack by (simpl; lia).
      simpl. rewrite xorb_false_r. destruct ((f <=? b) && (b <=? l)); auto.
  - injection H as <-. exists makeBitVector, (set_words s). repeat split; auto.
    intros P th b Hs Hb. apply seg_cons in Hs. destruct Hs as (Hs & Hs2). unfold exec_byte, fetch, get. rewrite Hs.
    cbn [bind]. change (w_op makeBitVector) with OpBitVector. cbn iota.
    rewrite (Hs2 (N.to_nat (b / 32)) _ (set_words_nth s (N.to_nat (b / 32)) ltac:(lia))). cbn [bind].
    rewrite N.land_spec, N.shiftr_spec by lia. rewrite N.ones_spec_low by lia. rewrite andb_true_r.
    replace (b mod 32 + 32 * N.of_nat (N.to_nat (b / 32))) with b by lia.
    cbn [length]. rewrite set_words_length. simpl allowed. destruct (N.testbit s b); auto.
Qed.

(** * Structured code *)

Inductive ins := ILabel (w : N) | ICheck (w : N) | IMatch | IFin | IFork (a : N) | IJump (a : N).

Definition ins_words (i : ins) : list N :=
  match i with
  | ILabel w => [w]
  | ICheck w => [w]
  | IMatch => [makeMatch]
  | IFin => [makeFinish]
  | IFork a => makeFork a
  | IJump a => makeJump a
  end.

Definition W (cs : list ins) : list N := flat_map ins_words cs.

Lemma W_app a b : W (a ++ b) = W a ++ W b.
Proof. apply flat_map_app. Qed.

Lemma ins_words_pos i : (0 < length (ins_words i))%nat.
Proof. destruct i; simpl; lia. Qed.

Definition res_or {A} (r : res A) (d : A) : A := match r with Ok a => a | _ => d end.

Definition land_of (g : nfa) (h : helper) (v : nat) : N := res_or (figureOutLanding g (h_snips h) v) 0.

Definition ind_ins (ls : list N) : list ins :=
  match ls with [] => [] | l :: r => map IFork (rev r) ++ [IJump l] end.

Lemma W_forks l : W (map IFork l) = flat_map makeFork l.
Proof. induction l; simpl; auto. rewrite IHl. auto. Qed.

Lemma W_ind ls : W (ind_ins ls) = indirect ls.
Proof. destruct ls as [|l r]; auto. unfold ind_ins, indirect. rewrite W_app, W_forks. reflexivity. Qed.

Fixpoint jc (g : nfa) (h : helper) (cells : table) (ind : N) : list N * list ins :=
  match cells with
  | [] => ([], [])
  | c :: r =>
      match c with
      | [] => let '(t, i) := jc g h r ind in (0 :: t, i)
      | [v] => let '(t, i) := jc g h r ind in (land_of g h v mod two32 :: t, i)
      | _ => let code := ind_ins (map (land_of g h) c) in
             let '(t, i) := jc g h r (ind + N.of_nat (length (W code))) in
             (ind mod two32 :: t, code ++ i)
      end
  end.

Lemma jump_cells_jc g h : forall cells ind t i, jump_cells g (h_snips h) cells ind = Ok (t, i) ->
  exists is, jc g h cells ind = (t, is) /\ i = W is /\
   forall c v, In c cells -> In v c -> figureOutLanding g (h_snips h) v = Ok (land_of g h v).
Proof.
  assert (Go: forall c ls, (fix go (vs : list nat) : res (list N) :=
       match vs with
       | [] => Ok []
       | v :: vs' => a <- figureOutLanding g (h_snips h) v ;; l <- go vs' ;; Ok (a :: l)
       end) c = Ok ls -> ls = map (land_of g h) c /\ forall v, In v c -> figureOutLanding g (h_snips h) v = Ok (land_of g h v)).
  { induction c as [|v c IH]; intros ls H.
    - injection H as <-. simpl. split; auto. easy.
    - inv_bind H. inv_bind H. injection H as <-. destruct (IH _ E0) as (-> & HH). assert (El: land_of g h v = x) by (unfold land_of; rewrite E; auto).
      simpl. rewrite El. split; auto. intros u [<-|Hu]; auto. rewrite El. auto. }
  induction cells as [|c r IH]; intros ind t i H; simpl in H.
  - injection H as <- <-. exists []. simpl. split; auto. split; auto. easy.
  - destruct c as [|v [|v2 c]].
    + inv_bind H. destruct x as [t1 i1]. injection H as <- <-. apply IH in E. destruct E as (is & E1 & E2 & E3).
      exists is. cbn [jc]. rewrite E1. split; auto. split; auto. intros c v [<-|Hc]; [easy|]. apply E3; auto.
    + inv_bind H. inv_bind H. destruct x0 as [t1 i1]. injection H as <- <-. apply IH in E0. destruct E0 as (is & E1 & E2 & E3).
      assert (El: land_of g h v = x) by (unfold land_of; rewrite E; auto).
      exists is. cbn [jc]. rewrite E1, El. split; auto. split; auto.
      intros c u [<-|Hc]; [|apply E3; auto]. intros [<-|[]]. rewrite El. auto.
    + inv_bind H. apply (Go (v :: v2 :: c)) in E. destruct E as (-> & HH).
      inv_bind H. destruct x as [t1 i1]. injection H as <- <-. rewrite <- W_ind in E. apply IH in E. destruct E as (is & E1 & E2 & E3).
      exists (ind_ins (map (land_of g h) (v :: v2 :: c)) ++ is). cbn [jc]. rewrite E1.
      unfold makeRaw32. rewrite N.mod_mod by discriminate. split; auto. split.
      * rewrite W_app, W_ind, E2. auto.
      * intros c' u [<-|Hc]; [apply HH|apply E3; auto].
Qed.

Definition sstart (h : helper) (v : nat) : N := match nth_error (h_snips h) v with Some s => sn_start s | None => 0 end.

Definition follows (h : helper) (v c : nat) : bool := res_or (targetCodeFollowsSource (h_ranks h) v c) false.

Definition pre_ins (h : helper) (x : vertex) (s : snip) : list ins :=
  (if v_label x =? NONE32 then [] else [ILabel (res_or (makeLabel (v_label x)) 0)]) ++
  (if sn_check s =? NONE32 then [] else [ICheck (res_or (makeCheckHalt (sn_check s)) 0)]) ++
  (if v_match x then IMatch :: match v_out x with [] => [IFin] | _ => [IFork ((h_guard h + 1) mod two32)] end else []).

Definition out_ins (h : helper) (v : nat) (x : vertex) (s : snip) : list ins :=
  if sn_jt s then []
  else match v_out x with
       | [] => []
       | c :: r => map IFork (rev (map (sstart h) r)) ++ (if follows h v c then [] else [IJump (sstart h c)])
       end.

Record jtab := mkJT { jt_head : N; jt_first : nat; jt_last : nat; jt_table : list N; jt_ind : list ins }.

Definition jt_of (g : nfa) (h : helper) (v : nat) (base : N) : jtab :=
  let tbl := res_or (pivotStates g v) [] in
  let '(first, last) := minAndMax tbl in
  let '(t, i) := jc g h (firstn (last + 1 - first) (skipn first tbl)) (base + 2 + N.of_nat (last - first)) in
  mkJT (res_or (makeJumpTableRange (N.of_nat first) (N.of_nat last)) 0) first last t i.

Record scode := mkSC { sc_ev : list N; sc_seq : list ins; sc_jt : option jtab }.

Definition jt_words (j : option jtab) : list N :=
  match j with None => [] | Some j => jt_head j :: jt_table j ++ W (jt_ind j) end.

Definition sc_words (c : scode) : list N := sc_ev c ++ W (sc_seq c) ++ jt_words (sc_jt c).

Definition code_of (g : nfa) (h : helper) (v : nat) : scode :=
  match nth_error g v, nth_error (h_snips h) v with
  | Some x, Some s =>
      let ev := match v_trans x with Some t => res_or (toInstruction t) [] | None => [] end in
      let cs := pre_ins h x s ++ out_ins h v x s in
      mkSC ev cs (if sn_jt s then Some (jt_of g h v (sn_start s + N.of_nat (length (ev ++ W cs)))) else None)
  | _, _ => mkSC [] [] None
  end.

(** * The words written are those of the structured code *)

Section Ann.
Variables (g : nfa) (K : nat -> N) (h : helper) (order : list nat) (P : program).
Hypothesis G : good g K.
Hypothesis L : layout g h order.
Hypothesis WR : written g h order P.

Notation start := (start h).
Notation evlen := (evlen h).
Notation len := (len h).
Notation guard := (guard h).
Notation code := (code_of g h).

(** Facts about the structured code of a state. *)
Record code_ok (v : nat) (x : vertex) (s : snip) : Prop := {
  co_x : nth_error g v = Some x;
  co_s : nth_error (h_snips h) v = Some s;
  co_code : code v = mkSC (sc_ev (code v)) (pre_ins h x s ++ out_ins h v x s)
              (if sn_jt s then Some (jt_of g h v (N.of_nat (start v + length (sc_ev (code v)) + length (W (sc_seq (code v)))))) else None);
  co_ev : if (v =? 0)%nat then sc_ev (code v) = [] else
     exists t, v_trans x = Some t /\ trans_ok t /\ toInstruction t = Ok (sc_ev (code v));
  co_evlen : length (sc_ev (code v)) = evlen v;
  co_len : length (sc_words (code v)) = len v;
  co_seg : seg (p_words P) (start v) (sc_words (code v));
  co_lab : v_label x <> NONE32 -> makeLabel (v_label x) = Ok (res_or (makeLabel (v_label x)) 0);
  co_chk : sn_check s <> NONE32 -> makeCheckHalt (sn_check s) = Ok (res_or (makeCheckHalt (sn_check s)) 0);
  co_follows : sn_jt s = false -> forall c r, v_out x = c :: r -> follows h v c = true -> start c = (start v + len v)%nat;
  co_jt : sn_jt s = true -> exists tbl f l w t i, pivotStates g v = Ok tbl /\ minAndMax tbl = (f, l) /\
      makeJumpTableRange (N.of_nat f) (N.of_nat l) = Ok w /\
      jt_of g h v (N.of_nat (start v + length (sc_ev (code v)) + length (W (sc_seq (code v))))) = mkJT w f l t i /\
      jc g h (firstn (l + 1 - f) (skipn f tbl)) (N.of_nat (start v + length (sc_ev (code v)) + length (W (sc_seq (code v)))) + 2 + N.of_nat (l - f)) = (t, i) /\
      (forall c u, In c (firstn (l + 1 - f) (skipn f tbl)) -> In u c -> figureOutLanding g (h_snips h) u = Ok (land_of g h u))
}.

Lemma map_starts r starts : map_res (fun t => st <- get (h_snips h) t ;; Ok (sn_start st)) r = Ok starts -> starts = map (sstart h) r.
Proof.
  revert starts. induction r as [|c r IH]; intros starts H; simpl in H.
  - injection H as <-. auto.
  - inv_bind H. inv_bind E. injection E as <-. inv_bind H. injection H as <-. apply get_ok in E0.
    simpl. unfold sstart at 1. rewrite E0. f_equal. auto.
Qed.

Lemma code_of_ok v : (v < length g)%nat -> exists x s, code_ok v x s.
Proof.
  intros Hv. destruct (wr_state _ _ _ _ WR v Hv) as (ws & E & Hl & Hs).
  destruct (ly_snip _ _ _ L v Hv) as (x & s & Ex & Es & Ha & So & _). exists x, s.
  unfold encodeState in E. unfold get in E at 1 2. rewrite Ex, Es in E. cbn [bind] in E. inv_bind E.
  destruct So as [S1 (outOps & S2 & S3)].
  set (ev := sc_ev (code v)).
  assert (Hst: start v = N.to_nat (sn_start s)) by (unfold CodegenCode.start; rewrite Es; auto).
  (* the part before the successors *)
  assert (Hpre: x0 = ev ++ W (pre_ins h x s) /\
    (v_label x <> NONE32 -> makeLabel (v_label x) = Ok (res_or (makeLabel (v_label x)) 0)) /\
    (sn_check s <> NONE32 -> makeCheckHalt (sn_check s) = Ok (res_or (makeCheckHalt (sn_check s)) 0)) /\
    (if (v =? 0)%nat then ev = [] else
     exists t, v_trans x = Some t /\ trans_ok t /\ toInstruction t = Ok ev) /\ length ev = evlen v).
  { subst ev. unfold code_of. rewrite Ex, Es. cbn [sc_ev]. unfold CodegenCode.evlen. rewrite Es.
    destruct (Nat.eqb_spec v 0) as [->|Hv0].
    - destruct (root_snip g K h order G L) as (x' & s' & Ex' & Es' & R1 & R2 & R3 & R4 & R5 & R6).
      rewrite Ex in Ex'. injection Ex' as <-. rewrite Es in Es'. injection Es' as <-.
      rewrite R1 in E0. injection E0 as <-. unfold pre_ins. change NONE32 with NOLABEL in *. rewrite R1, R2, R3, R5, R6.
      split; [reflexivity|]. split; [easy|]. split; [easy|]. auto.
    - destruct (gd_state _ _ G v x Hv0 Ex) as ((t & Et & Ht) & _).
      destruct S1 as (t' & Et' & S1). rewrite Et in Et'. injection Et' as <-.
      rewrite Et in E0 |- *. inv_bind E0. inv_bind E0. inv_bind E0. injection E0 as <-.
      rewrite E1. cbn [res_or]. split; [|split; [|split; [|split]]].
      + f_equal. unfold pre_ins. rewrite !W_app. f_equal; [|f_equal].
        * destruct (v_label x =? NONE32); [injection E2 as <-; auto|]. inv_bind E2. injection E2 as <-. rewrite E0. auto.
        * destruct (sn_check s =? NONE32); [injection E3 as <-; auto|]. inv_bind E3. injection E3 as <-. rewrite E0. auto.
        * destruct (v_match x); auto. destruct (v_out x); auto.
      + intros Hn. apply N.eqb_neq in Hn. rewrite Hn in E2. inv_bind E2. rewrite E0. auto.
      + intros Hn. apply N.eqb_neq in Hn. rewrite Hn in E3. inv_bind E3. rewrite E0. auto.
      + eauto.
      + apply toInstruction_length in E1. rewrite S1. lia. }
  destruct Hpre as (-> & Hlab & Hchk & Hev & Hevl).
  assert (Hcode: code v = mkSC ev (pre_ins h x s ++ out_ins h v x s)
              (if sn_jt s then Some (jt_of g h v (sn_start s + N.of_nat (length (ev ++ W (pre_ins h x s ++ out_ins h v x s))))) else None)).
  { subst ev. unfold code_of. rewrite Ex, Es. reflexivity. }
  assert (Hseq: sc_seq (code v) = pre_ins h x s ++ out_ins h v x s) by (rewrite Hcode; auto).
  assert (Hbase: N.of_nat (start v + length ev + length (W (sc_seq (code v)))) = sn_start s + N.of_nat (length (ev ++ W (pre_ins h x s ++ out_ins h v x s)))).
  { rewrite Hseq, app_length, Hst. lia. }
  destruct (sn_jt s) eqn:Ej.
  - inv_bind E. injection E as <- _.
    assert (Hout: out_ins h v x s = []) by (unfold out_ins; rewrite Ej; auto).
    unfold createJumpTable in E1. inv_bind E1. destruct (minAndMax x1) as [f l] eqn:Em. inv_bind E1. inv_bind E1.
    destruct x3 as [t i]. injection E1 as <-.
    apply jump_cells_jc in E3. destruct E3 as (is & J1 & J2 & J3).
    assert (Hb2: sn_start s + N.of_nat (length (ev ++ W (pre_ins h x s))) = N.of_nat (start v + length ev + length (W (sc_seq (code v))))).
    { rewrite Hbase, Hout, app_nil_r. auto. }
    assert (Hjt: jt_of g h v (N.of_nat (start v + length ev + length (W (sc_seq (code v))))) = mkJT x2 f l t is).
    { unfold jt_of. rewrite E. cbn [res_or]. rewrite Em, E2, <- Hb2. cbn [res_or].
      rewrite J1. auto. }
    assert (Hws: sc_words (code v) = (ev ++ W (pre_ins h x s)) ++ x2 :: t ++ i).
    { unfold sc_words. rewrite Hcode. cbn [sc_ev sc_seq sc_jt]. rewrite Hout, app_nil_r.
      rewrite <- Hb2 in Hjt. rewrite Hjt. cbn [jt_words jt_head jt_table jt_ind]. rewrite J2, <- app_assoc. auto. }
    constructor; auto; fold ev.
    + rewrite Hbase. rewrite Ej. exact Hcode.
    + rewrite Hws. auto.
    + rewrite Hws. auto.
    + congruence.
    + intros _. exists x1, f, l, x2, t, is. repeat split; auto. rewrite <- Hb2. auto.
  - assert (Hws: sc_words (code v) = ws).
    { unfold sc_words. rewrite Hcode. cbn [sc_ev sc_seq sc_jt jt_words]. rewrite app_nil_r, W_app, app_assoc.
      unfold out_ins. rewrite Ej. destruct (v_out x) as [|c r].
      - injection E as <-. simpl. rewrite app_nil_r. auto.
      - inv_bind E. inv_bind E. inv_bind E. injection E as <-. apply map_starts in E1. rewrite E1. f_equal.
        rewrite W_app, W_forks. f_equal. apply get_ok in E2. unfold follows. rewrite E3. cbn [res_or].
        unfold sstart. rewrite E2. destruct x2; auto. }
    constructor; auto; fold ev.
    + rewrite Ej. exact Hcode.
    + rewrite Hws. auto.
    + rewrite Hws. auto.
    + intros _ c r Eo Hf. destruct S3 as (_ & S3). rewrite Eo in S3. destruct S3 as (rv & rc & Rv & Rc & _).
      unfold follows, targetCodeFollowsSource, get in Hf. rewrite Rv, Rc in Hf. cbn [bind res_or] in Hf.
      apply N.eqb_eq in Hf. apply (follows_start g h order L v c rv rc); auto.
      apply (gd_edge _ _ G v c). unfold edge. rewrite (edge_outs _ _ _ Ex), Eo. left; auto.
    + congruence.
Qed.

End Ann.
