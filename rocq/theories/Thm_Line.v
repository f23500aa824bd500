(** C27, C28, C44: printing hits. *)
From Verif Require Import Base VmModel UtfModel EncModel EncProofs DecModel DecProofs Thm_Dec LineModel.
Open Scope N_scope.

(** Number of line feeds from position [a] to before position [b]. *)
Definition line_feeds (blk : list N) (a b : nat) : nat :=
  length (filter (fun c => c =? 10) (firstn (b - a) (skipn a blk))).

Lemma lf_step blk a b x : (a < b)%nat -> nth_error blk a = Some x ->
  line_feeds blk a b = ((if N.eqb x 10 then 1 else 0) + line_feeds blk (S a) b)%nat.
Proof.
  intros H E. unfold line_feeds. rewrite (RangeSetProofs.skipn_cons _ _ _ E). replace (b - a)%nat with (S (b - S a)) by lia.
  cbn [firstn filter]. destruct (x =? 10); reflexivity.
Qed.
Lemma lf_split blk m b : (m <= b)%nat -> forall a, (a <= m)%nat -> line_feeds blk a b = (line_feeds blk a m + line_feeds blk m b)%nat.
Proof.
  intros H a Ha. unfold line_feeds. replace (b - a)%nat with ((m - a) + (b - m))%nat by lia.
  rewrite <- (firstn_skipn (m - a) (firstn (m - a + (b - m)) (skipn a blk))).
  rewrite firstn_firstn, skipn_firstn_comm, skipn_skipn, filter_app, app_length.
  replace (Nat.min (m - a) (m - a + (b - m))) with (m - a)%nat by lia. replace (m - a + (b - m) - (m - a))%nat with (b - m)%nat by lia.
  replace (m - a + a)%nat with m by lia. reflexivity.
Qed.
Lemma lf_refl blk a : line_feeds blk a a = 0%nat.
Proof. unfold line_feeds. rewrite Nat.sub_diag. reflexivity. Qed.
Lemma lf_le blk a b : (line_feeds blk a b <= b - a)%nat.
Proof. unfold line_feeds. set (l := firstn _ _). assert (length l <= b - a)%nat by (unfold l; rewrite firstn_length; lia).
  assert (G : forall l : list N, (length (filter (fun c => N.eqb c 10) l) <= length l)%nat) by (induction l0; simpl; [lia|]; destruct (_ =? _); simpl; lia).
  specialize (G l). lia. Qed.

Lemma find_back_spec blk p : (p <= length blk)%nat -> exists q, find_back blk p = Ok q /\ (q <= p)%nat /\ line_feeds blk q p = 0%nat /\
  (q = 0%nat \/ exists k, q = S k /\ nth_error blk k = Some 10).
Proof.
  induction p as [|p IH]; intros H; cbn [find_back].
  - exists 0%nat. rewrite lf_refl. auto.
  - destruct (nth_error blk p) as [b|] eqn:E; [|apply nth_error_None in E; lia]. unfold get. rewrite E. cbn [bind]. unfold LF.
    destruct (N.eqb_spec b 10) as [->|Hb].
    + exists (S p). rewrite lf_refl. repeat split; auto. right. eauto.
    + destruct IH as (q & E1 & H1 & H2 & H3); [lia|]. exists q. repeat split; auto. rewrite (lf_split blk p) by lia. rewrite H2.
      rewrite (lf_step blk p (S p) b), lf_refl by (auto; lia). destruct (N.eqb_spec b 10); congruence || reflexivity.
Qed.

(** [p] is where the context of [lines] lines before [hbeg] begins. *)
Definition context_begins (blk : list N) (hbeg : nat) (lines : nat) (p : nat) : Prop :=
  (p <= hbeg)%nat /\
  (p = 0%nat /\ (line_feeds blk 0 hbeg <= lines)%nat \/
   line_feeds blk p hbeg = lines /\ exists k, p = S k /\ nth_error blk k = Some 10).

Lemma leading_loop_spec blk hbeg : (hbeg <= length blk)%nat -> forall r n lnl, (0 < lnl)%nat -> (lnl <= S hbeg)%nat ->
  (lnl = S hbeg /\ n = 0%nat \/ (lnl <= hbeg)%nat /\ S (line_feeds blk lnl hbeg) = n /\ exists k, lnl = S k /\ nth_error blk k = Some 10) ->
  (0 < r)%nat ->
  exists p, leading_loop blk r lnl = Ok p /\ context_begins blk hbeg (n + r - 1) p.
Proof.
  intros Hb. induction r as [|r IH]; intros n lnl H0 H1 Hinv Hr; [lia|]. cbn [leading_loop].
  destruct (Nat.eqb_spec lnl 0); [lia|].
  destruct (find_back_spec blk (lnl - 1)) as (q & E & Hq & F & D); [lia|]. rewrite E. cbn [bind].
  assert (C : line_feeds blk q hbeg = n).
  { destruct Hinv as [[-> ->]|(L & <- & k & -> & Ek)].
    - replace (S hbeg - 1)%nat with hbeg in * by lia. auto.
    - replace (S k - 1)%nat with k in * by lia. rewrite (lf_split blk k) by lia. rewrite F, (lf_step blk k hbeg 10) by (auto; lia). reflexivity. }
  destruct D as [->|(k & -> & Ek)].
  - assert (EL : leading_loop blk r 0 = Ok 0%nat) by (destruct r; reflexivity). rewrite EL.
    exists 0%nat. split; auto. split; [lia|]. left. split; auto. lia.
  - destruct r as [|r].
    + cbn [leading_loop]. exists (S k). split; auto. split; [lia|]. right. split; [lia|eauto].
    + destruct (IH (S n) (S k)) as (p & Ep & Cp); [lia|lia| |lia|].
      * right. split; [lia|]. split; [congruence|eauto].
      * exists p. split; auto. replace (n + S (S r) - 1)%nat with (S n + S r - 1)%nat by lia. auto.
Qed.

Lemma context_more blk hbeg n m p : (hbeg < n)%nat -> (hbeg < m)%nat -> context_begins blk hbeg n p -> context_begins blk hbeg m p.
Proof.
  intros Hn Hm (H & [[-> L]|[L _]]).
  - split; auto. left. split; auto. pose proof (lf_le blk 0 hbeg). lia.
  - pose proof (lf_le blk p hbeg). lia.
Qed.

(** C27, before the hit. *)
Theorem leading_context_lines blk hbeg lines :
  (hbeg <= length blk)%nat -> lines < 2 ^ 31 - 1 ->
  exists p, find_leading_context blk hbeg lines = Ok p /\ context_begins blk hbeg (N.to_nat lines) p.
Proof.
  change (2 ^ 31 - 1) with 2147483647. intros Hb Hl. unfold find_leading_context, int_rounds, two32. rewrite N.mod_small by lia. destruct (N.ltb_spec (lines + 1) 2147483648); [|lia].
  set (r := Nat.min (N.to_nat (N.min (lines + 1) (N.of_nat hbeg + 2))) (hbeg + 2)).
  assert (R : r = N.to_nat (lines + 1) \/ (r = hbeg + 2)%nat /\ (hbeg < N.to_nat lines)%nat) by (unfold r; lia).
  destruct (leading_loop_spec blk hbeg Hb r 0 (S hbeg)) as (p & E & C); [lia|lia|auto|lia|].
  exists p. split; auto. destruct R as [-> |[-> R]].
  - replace (0 + N.to_nat (lines + 1) - 1)%nat with (N.to_nat lines) in C by lia. auto.
  - eapply context_more; [| |exact C]; lia.
Qed.
Print Assumptions leading_context_lines.

(** [p] is where the [lines]-th line after the one containing [hend] ends: at a line feed, or at the end. *)
Definition lines_end (blk : list N) (hend : nat) (lines : nat) (p : nat) : Prop :=
  (hend <= p <= length blk)%nat /\
  (p = length blk /\ (line_feeds blk hend p <= lines)%nat \/ nth_error blk p = Some 10 /\ line_feeds blk hend p = lines).

Lemma find_fwd_spec blk : forall n p, (p + n = length blk)%nat -> exists q, find_fwd blk n p = Ok q /\ (p <= q <= length blk)%nat /\
  line_feeds blk p q = 0%nat /\ (q = length blk \/ nth_error blk q = Some 10).
Proof.
  induction n as [|n IH]; intros p H; cbn [find_fwd].
  - exists p. rewrite lf_refl. repeat split; auto; try lia.
  - destruct (nth_error blk p) as [b|] eqn:E; [|apply nth_error_None in E; lia]. unfold get. rewrite E. cbn [bind]. unfold LF.
    destruct (N.eqb_spec b 10) as [->|Hb].
    + exists p. rewrite lf_refl. repeat split; auto; lia.
    + destruct (IH (S p)) as (q & E1 & H1 & H2 & H3); [lia|]. exists q. repeat split; auto; try lia.
      rewrite (lf_step blk p q b) by (auto; lia). rewrite H2. destruct (N.eqb_spec b 10); congruence || reflexivity.
Qed.

Lemma trailing_loop_spec blk hend : (hend <= length blk)%nat -> forall r n next, (hend <= next <= length blk)%nat ->
  line_feeds blk hend next = n -> (0 < r)%nat ->
  exists p, trailing_loop blk r next = Ok (S p) /\ lines_end blk hend (n + r - 1) p.
Proof.
  intros Hh. induction r as [|r IH]; intros n next H1 Hn Hr; [lia|]. cbn [trailing_loop].
  destruct (Nat.eqb_spec next (S (length blk))); [lia|].
  destruct (find_fwd_spec blk (length blk - next) next) as (q & E & Hq & F & D); [lia|]. rewrite E. cbn [bind].
  assert (C : line_feeds blk hend q = n) by (rewrite (lf_split blk next) by lia; lia).
  destruct (Nat.eq_dec q (length blk)) as [->|Hne].
  - assert (EL : trailing_loop blk r (S (length blk)) = Ok (S (length blk))) by (destruct r; cbn [trailing_loop]; auto; rewrite Nat.eqb_refl; auto).
    rewrite EL. exists (length blk). split; auto. split; [lia|]. left. split; auto. lia.
  - destruct D as [D|D]; [contradiction|]. destruct r as [|r].
    + cbn [trailing_loop]. exists q. split; auto. split; [lia|]. right. split; auto. lia.
    + destruct (IH (S n) (S q)) as (p & Ep & Cp); [lia| |lia|].
      * rewrite (lf_split blk q) by lia. rewrite (lf_step blk q (S q) 10), lf_refl by (auto; lia). change (10 =? 10) with true. cbn [Nat.add]. lia.
      * exists p. split; auto. replace (n + S (S r) - 1)%nat with (S n + S r - 1)%nat by lia. auto.
Qed.

(** C27, after the hit: the context ends there, or one byte before if a carriage return precedes the
    line feed. *)
Theorem trailing_context_lines blk hend lines :
  (hend <= length blk)%nat -> lines < 2 ^ 31 - 1 ->
  exists p e, find_trailing_context blk hend lines = Ok e /\ lines_end blk hend (N.to_nat lines) p /\ (hend <= e)%nat /\
    (e = p /\ ~ ((hend < p < length blk)%nat /\ nth_error blk (p - 1) = Some 13) \/
     S e = p /\ nth_error blk e = Some 13 /\ nth_error blk p = Some 10).
Proof.
  change (2 ^ 31 - 1) with 2147483647. intros Hb Hl. unfold find_trailing_context, int_rounds, two32. rewrite N.mod_small by lia. destruct (N.ltb_spec (lines + 1) 2147483648); [|lia].
  set (r := N.to_nat (N.min (lines + 1) (N.of_nat (length blk) + 2))).
  assert (R : r = N.to_nat (lines + 1) \/ (r = length blk + 2)%nat /\ (length blk < N.to_nat lines)%nat) by (unfold r; lia).
  destruct (trailing_loop_spec blk hend Hb r 0 hend) as (p & E & C); [lia|apply lf_refl|lia|]. rewrite E. cbn [bind].
  assert (C' : lines_end blk hend (N.to_nat lines) p).
  { destruct R as [-> |[-> R]].
    - replace (0 + N.to_nat (lines + 1) - 1)%nat with (N.to_nat lines) in C by lia. auto.
    - destruct C as (? & [[? ?]|[? L]]); (split; [lia|]); pose proof (lf_le blk hend p); [left; split; auto; lia|lia]. }
  exists p. assert (Hp : (hend <= p <= length blk)%nat) by (destruct C'; auto).
  replace (S p - 2)%nat with (p - 1)%nat by lia. replace (S p - 1)%nat with p by lia.
  destruct (Nat.ltb_spec (S hend) (S p)); cbn [andb].
  - destruct (Nat.eqb_spec (S p) (S (length blk))); cbn [negb].
    + exists p. split; auto. split; auto. split; [lia|]. left. split; auto. lia.
    + destruct (nth_error blk (p - 1)) as [b|] eqn:Eb; [|apply nth_error_None in Eb; lia]. unfold get. rewrite Eb. cbn [bind]. unfold CR.
      destruct (N.eqb_spec b 13) as [->|].
      * exists (p - 1)%nat. split; auto. split; auto. split; [lia|]. right. split; [lia|]. split; auto.
        destruct C' as (_ & [[? _]|[? _]]); [lia|auto].
      * exists p. split; auto. split; auto. split; [lia|]. left. split; auto. intros [_ G]. congruence.
  - exists p. split; auto. split; auto. split; [lia|]. left. split; auto. lia.
Qed.
Print Assumptions trailing_context_lines.

(** "a LF b LF hit CR LF c LF d", one line of context on either side. *)
Example context_lines_case :
  let blk := [97; 10; 98; 10; 104; 105; 116; 13; 10; 99; 10; 100] in
  find_leading_context blk 4 1 = Ok 2%nat /\ find_trailing_context blk 7 1 = Ok 10%nat /\ find_trailing_context blk 7 0 = Ok 7%nat /\
  find_leading_context blk 4 2 = Ok 0%nat /\ find_trailing_context blk 7 5 = Ok 12%nat.
Proof. vm_compute. auto. Qed.

(** Asking for 2^31 - 1 lines, the most there can be, makes the count of rounds negative: the context
    then begins one byte inside the hit and ends one byte before its end. *)
Theorem context_lines_largest_refuted :
  exists blk, find_leading_context blk 1 (2 ^ 31 - 1) = Ok 2%nat /\ find_trailing_context blk 3 (2 ^ 31 - 1) = Ok 2%nat.
Proof. exists [97; 98; 99; 100]. vm_compute. auto. Qed.
Print Assumptions context_lines_largest_refuted.

(** * C28 *)

(** A hit that began in an earlier block is decoded from before the block that is held. *)
Theorem context_of_earlier_hit_refuted blk off c start end_ before after :
  match before with Some l => l < 2 ^ 31 - 1 | None => True end -> match after with Some l => l < 2 ^ 31 - 1 | None => True end ->
  start < off -> decodeContext blk off c start end_ before after = UB.
Proof.
  intros Hb Ha H. unfold decodeContext. destruct (N.ltb_spec start off); [|lia]. change (N.to_nat 0) with 0%nat.
  assert (E1 : exists cbeg, match before with None => Ok 0%nat | Some l => find_leading_context blk 0 l end = Ok cbeg).
  { destruct before as [l|]; [|eauto]. destruct (leading_context_lines blk 0 l) as (p & E & _); [lia|auto|eauto]. }
  destruct E1 as [cbeg ->]. cbn [bind]. set (hend := N.to_nat _).
  assert (E2 : exists cend, match after with None => Ok hend | Some l => find_trailing_context blk hend l end = Ok cend).
  { destruct after as [l|]; [|eauto]. destruct (trailing_context_lines blk hend l) as (p & e & E & _); [unfold hend; lia|auto|eauto]. }
  destruct E2 as [cend ->]. cbn [bind]. replace (start <? off + N.of_nat cbeg) with true by lia. reflexivity.
Qed.
Print Assumptions context_of_earlier_hit_refuted.

(** For a hit inside the block nothing outside it is read, and the text is the hit's with its lines of
    context around it. *)
Theorem context_of_hit_in_block rs cs ts blk off start end_ before after :
  Forall bt_ok ts -> EncProofs.bytes blk -> off <= start -> start <= end_ -> end_ <= off + N.of_nat (length blk) ->
  off + N.of_nat (length blk) < 2 ^ 64 ->
  match before with Some l => l < 2 ^ 31 - 1 | None => True end -> match after with Some l => l < 2 ^ 31 - 1 | None => True end ->
  exists cbeg cend h,
    decodeContext blk off (text_chain rs cs ts) start end_ before after = Ok (off + N.of_nat cbeg, h) /\
    (cbeg <= N.to_nat (start - off))%nat /\ (N.to_nat (end_ - off) <= cend <= length blk)%nat /\
    match before with Some l => context_begins blk (N.to_nat (start - off)) (N.to_nat l) cbeg | None => cbeg = N.to_nat (start - off) end /\
    match after with
    | Some l => exists p, lines_end blk (N.to_nat (end_ - off)) (N.to_nat l) p /\ (cend = p \/ S cend = p /\ nth_error blk cend = Some 13)
    | None => cend = N.to_nat (end_ - off) end /\
    hit_context (firstn (cend - cbeg) (skipn cbeg blk)) (text_chain rs cs ts)
      (N.to_nat (start - off) - cbeg) (N.to_nat (end_ - off) - cbeg) (cend - cbeg) 65533 = Ok h.
Proof.
  intros OK B H1 H2 H3 H4 Hb Ha. unfold decodeContext. destruct (N.ltb_spec start off); [lia|].
  set (hbeg := N.to_nat (start - off)). assert (Hbl : (hbeg <= length blk)%nat) by (unfold hbeg; lia).
  assert (E1 : exists cbeg, match before with None => Ok hbeg | Some l => find_leading_context blk hbeg l end = Ok cbeg /\ (cbeg <= hbeg)%nat /\
    match before with Some l => context_begins blk hbeg (N.to_nat l) cbeg | None => cbeg = hbeg end).
  { destruct before as [l|]; [|exists hbeg; auto]. destruct (leading_context_lines blk hbeg l) as (p & E & C); [auto..|]. exists p. split; auto. split; auto. destruct C; auto. }
  destruct E1 as (cbeg & -> & Lb & Cb). cbn [bind].
  change (2 ^ 64) with 18446744073709551616 in H4.
  assert (HE : N.min ((end_ + two64 - off) mod two64) (N.of_nat (length blk)) = end_ - off).
  { unfold two64. replace (end_ + 18446744073709551616 - off) with (end_ - off + 1 * 18446744073709551616) by lia. rewrite N.mod_add by lia. rewrite N.mod_small by lia. lia. }
  rewrite HE. set (hend := N.to_nat (end_ - off)). assert (Hel : (hend <= length blk)%nat) by (unfold hend; lia).
  assert (E2 : exists cend, match after with None => Ok hend | Some l => find_trailing_context blk hend l end = Ok cend /\ (hend <= cend <= length blk)%nat /\
    match after with
    | Some l => exists p, lines_end blk hend (N.to_nat l) p /\ (cend = p \/ S cend = p /\ nth_error blk cend = Some 13)
    | None => cend = hend end).
  { destruct after as [l|]; [|exists hend; auto]. destruct (trailing_context_lines blk hend l) as (p & e & E & C & Le & D); [auto..|]. exists e. split; auto.
    assert (hend <= p <= length blk)%nat by (destruct C; auto).
    destruct D as [[-> _]|(Ee & N1 & N2)]; (split; [lia|]); exists p; auto. }
  destruct E2 as (cend & -> & Le & Ce). cbn [bind].
  assert (hbeg <= hend)%nat by (unfold hbeg, hend; lia).
  replace ((start <? off + N.of_nat cbeg) || (off + N.of_nat cbeg + N.of_nat (cend - cbeg) <? end_) || (end_ <? start) || (cend <? cbeg)%nat) with false
    by (unfold hbeg, hend in *; lia).
  replace (N.to_nat (start - (off + N.of_nat cbeg))) with (hbeg - cbeg)%nat by (unfold hbeg; lia).
  replace (N.to_nat (end_ - (off + N.of_nat cbeg))) with (hend - cbeg)%nat by (unfold hend; lia).
  set (ctx := firstn (cend - cbeg) (skipn cbeg blk)).
  assert (LC : length ctx = (cend - cbeg)%nat) by (unfold ctx; rewrite firstn_length, skipn_length; lia).
  destruct (hit_context_text rs cs ts ctx (hbeg - cbeg) (hend - cbeg) (cend - cbeg) 65533 OK) as (lead & hit & trail & st & fin & bad & E & _).
  { unfold ctx. apply RangeSetProofs.Forall_firstn, RangeSetProofs.Forall_skipn. auto. } { lia. }
  { change (2 ^ 64) with 18446744073709551616. lia. }
  cbv zeta in E. rewrite E. cbn [bind]. exists cbeg, cend. eexists. split; [reflexivity|]. repeat split; auto; try lia.
Qed.
Print Assumptions context_of_hit_in_block.

Example context_of_hit_case :
  decodeContext [97; 10; 104; 105; 10; 98] 100 (text_chain [] UTF8 []) 102 104 (Some 0) (Some 0) =
    Ok (102, mkH [104; 105; 0] (0%nat, 2%nat) (0%nat, 2%nat) 4294967295) /\
  decodeContext [97; 10; 104; 105; 10; 98] 100 (text_chain [] UTF8 []) 99 104 None None = UB.
Proof. split; reflexivity. Qed.

(** * C44 *)

(** Printed text has no tab, line feed or carriage return, and reading the escapes back gives the text
    if it has no backslash. *)
Fixpoint unescape (s : list N) : list N :=
  match s with
  | [] => []
  | b :: t =>
      if b =? 92 then
        match t with
        | 97 :: r => 7 :: unescape r | 98 :: r => 8 :: unescape r | 116 :: r => 9 :: unescape r | 110 :: r => 10 :: unescape r
        | 118 :: r => 11 :: unescape r | 102 :: r => 12 :: unescape r | 114 :: r => 13 :: unescape r
        | _ => b :: unescape t
        end
      else b :: unescape t
  end.

Ltac case_eqb := repeat match goal with |- context [?b =? ?k] => destruct (N.eqb_spec b k); [subst|] end.

Theorem escaped_text_one_line s :
  Forall (fun b => b < 7 \/ 13 < b) (escapeControlChars s) /\
  Forall (fun b => b <> 0 /\ b <> 9 /\ b <> 10 /\ b <> 13) (write_context s) /\
  (~ In 92 s -> unescape (escapeControlChars s) = s) /\
  (~ In 92 s -> ~ In 0 s -> unescape (write_context s) = s).
Proof.
  induction s as [|b s (I1 & I2 & I3 & I4)]; [simpl; repeat split; auto|].
  split; [|split; [|split]].
  - unfold escapeControlChars. cbn [flat_map]. apply Forall_app. split; auto. unfold escape_char. case_eqb; repeat (apply Forall_cons; [lia|]); apply Forall_nil.
  - cbn [write_context]. destruct (N.eqb_spec b 0); [constructor|]. apply Forall_app. split; auto. case_eqb; repeat (apply Forall_cons; [lia|]); apply Forall_nil.
  - intros H. unfold escapeControlChars in *. cbn [flat_map]. assert (b <> 92) by (intros ->; apply H; left; auto).
    assert (I3' : unescape (flat_map escape_char s) = s) by (apply I3; intros G; apply H; right; auto).
    unfold escape_char at 1. case_eqb; cbn [app unescape]; try (change (92 =? 92) with true; cbv beta iota; rewrite I3'; reflexivity).
    destruct (N.eqb_spec b 92); [contradiction|]. rewrite I3'. auto.
  - intros H H0. cbn [write_context]. assert (b <> 92) by (intros ->; apply H; left; auto). assert (b <> 0) by (intros ->; apply H0; left; auto).
    assert (I4' : unescape (write_context s) = s) by (apply I4; intros G; [apply H|apply H0]; right; auto).
    destruct (N.eqb_spec b 0); [contradiction|].
    case_eqb; cbn [app unescape]; try (change (92 =? 92) with true; cbv beta iota; rewrite I4'; reflexivity).
    destruct (N.eqb_spec b 92); [contradiction|]. rewrite I4'. auto.
Qed.
Print Assumptions escaped_text_one_line.

(** Backslashes are not escaped, so different texts can look the same. *)
Theorem escaping_ambiguous_refuted : exists s t, s <> t /\ escapeControlChars s = escapeControlChars t /\ write_context s = write_context t.
Proof. exists [9], [92; 116]. split; [discriminate|]. split; reflexivity. Qed.
Print Assumptions escaping_ambiguous_refuted.
