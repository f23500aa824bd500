(** Reading the meaning of a pattern off its tokens: a function that finds every reading there is. *)
From Verif Require Import Base RangeSetModel ByteSetModel PatModel PatSpec EncModel BuildEnc ParseModel ParseSets ParseGrammar ParseRun ParseFull Thm_Enc Thm_Fixed Thm_Class Thm_Meaning.
Import PatSpec.
Open Scope Z_scope.

Definition ob {A B} (x : option A) (f : A -> option B) : option B := match x with Some a => f a | None => None end.

(** * Classes *)

(** The character of a token in brackets *)
Definition tchar (first : bool) (k : tok) : option Z :=
  match k with
  | TChar c | TDigit c => Some c
  | TSmallB => Some 8
  | TP c => if c =? 91 then None else if first then (if c =? 94 then None else Some c) else if (c =? 93) || (c =? 45) then None else Some c
  | _ => None
  end.
Lemma tchar_iff first k a : tchar first k = Some a <-> token_char first k a.
Proof.
  unfold token_char. split.
  - destruct k; cbn [tchar]; try discriminate; try (intros E; injection E as <-; auto; fail). destruct (Z.eqb_spec c 91); [discriminate|]. intros E. right; right; right. destruct first.
    + destruct (Z.eqb_spec c 94); [discriminate|]. injection E as <-. auto.
    + destruct (Z.eqb_spec c 93); [discriminate|]. destruct (Z.eqb_spec c 45); [discriminate|]. injection E as <-. auto.
  - intros [->|[->|[(-> & ->)|(-> & N & H)]]]; cbn [tchar]; auto. apply Z.eqb_neq in N. rewrite N. destruct first.
    + apply Z.eqb_neq in H. rewrite H. auto.
    + destruct H as (H1 & H2). apply Z.eqb_neq in H1, H2. rewrite H1, H2. auto.
Qed.

(** How a class is written, bytes included; a class with bytes has no expression. *)
Definition comb (op : setop) (x y : option cexpr) : option cexpr := match x, y with Some e, Some g => Some (XOp op e g) | _, _ => None end.
Definition dash (a : Z) (x : option cexpr) : option cexpr := option_map (XOp OUnion (XOp OUnion (XChar a) (XChar 45))) x.
Inductive cread : level -> option cexpr -> list tok -> Prop :=
| k_pos b x ts : cread (Expr true b) x ts -> cread Whole (option_map XPos x) (TP 91 :: ts ++ [TP 93])
| k_neg b x ts : cread (Expr false b) x ts -> cread Whole (option_map XNeg x) (TP 91 :: TP 94 :: ts ++ [TP 93])
| k_named s : cread Whole (Some (XNamed s)) [TSet s]
| k_elem f b x ts : cread (Elem f b) x ts -> cread (Expr f b) x ts
| k_op f b b' op x ts y us : cread (Expr f b) x ts -> cread (Elem false b') y us ->
    (b = true -> hyphen_next (op_toks op ++ us) = false) -> cread (Expr f b') (comb op x y) (ts ++ op_toks op ++ us)
| k_whole f x ts : cread Whole x ts -> cread (Elem f false) x ts
| k_char f k a : tchar f k = Some a -> cread (Elem f true) (Some (XChar a)) [k]
| k_hyphen : cread (Elem false false) (Some (XChar 45)) [TP 45]
| k_range f k l a b : tchar f k = Some a -> tchar false l = Some b -> cread (Elem f false) (Some (XRange a b)) [k; TP 45; l]
| k_dash f k a x ts : tchar f k = Some a -> cread Whole x ts -> cread (Elem f false) (dash a x) (k :: TP 45 :: ts)
| k_byte f a : cread (Elem f true) None [TByte a]
| k_byte_range f a b : cread (Elem f false) None [TByte a; TP 45; TByte b]
| k_byte_dash f a x ts : cread Whole x ts -> cread (Elem f false) None (TByte a :: TP 45 :: ts).

Lemma not_hyphen ts : (forall vs, ts <> TP 45 :: vs) -> hyphen_next ts = false.
Proof. intros H. destruct ts as [|[c| | | | | | | | | | | | |] r]; try reflexivity. cbn [hyphen_next]. apply Z.eqb_neq. intros ->. apply (H r). auto. Qed.
Lemma written_cread l e ts : written l e ts -> cread l (Some e) ts.
Proof.
  induction 1 as [b e ts _ IH|b e ts _ IH|s|f b e ts _ IH|f b b' op e ts g us _ IH1 _ IH2 HN|f e ts _ IH|f k a H| |f k m a b H1 H2 L|f k a e ts H _ IH].
  - apply (k_pos b (Some e)); auto.
  - apply (k_neg b (Some e)); auto.
  - apply k_named.
  - apply k_elem; auto.
  - apply (k_op f b b' op (Some e) ts (Some g)); auto. intros Hb. apply not_hyphen; auto.
  - apply k_whole; auto.
  - apply k_char, tchar_iff; auto.
  - apply k_hyphen.
  - apply k_range; apply tchar_iff; auto.
  - apply (k_dash f k a (Some e)); auto. apply tchar_iff; auto.
Qed.
Lemma char_tchar first k a : cc_char first k = Some a -> tchar first k = Some a.
Proof. intros E. apply tchar_iff. eapply char_token; eauto. Qed.

Lemma char_not_byte first k a b : tchar first k = Some a -> k <> TByte b.
Proof. intros E ->. discriminate E. Qed.
Definition has_bytes (ts : list tok) : Prop := exists b, In (TByte b) ts.
Lemma class_cread I o :
  (forall ts c n, charclass I o ts c n -> exists x, cread Whole x ts /\ (has_bytes ts -> x = None)) /\
  (forall f b ts c n, cc_expr I o f b ts c n -> exists x, cread (Expr f b) x ts /\ (has_bytes ts -> x = None)) /\
  (forall f b ts c n, cc_elem I o f b ts c n -> exists x, cread (Elem f b) x ts /\ (has_bytes ts -> x = None)).
Proof.
  apply (class_mut I o (fun ts c n => exists x, cread Whole x ts /\ (has_bytes ts -> x = None)) (fun f b ts c n => exists x, cread (Expr f b) x ts /\ (has_bytes ts -> x = None)) (fun f b ts c n => exists x, cread (Elem f b) x ts /\ (has_bytes ts -> x = None))).
  - intros b ts c n c' _ (x & H & B) _. eexists. split; [eapply k_pos; eauto|]. intros (y & [K|K]); [discriminate|]. apply in_app_or in K as [K|[K|[]]]; [|discriminate]. rewrite B; [reflexivity|exists y; auto].
  - intros b ts c n c' _ (x & H & B) _. eexists. split; [eapply k_neg; eauto|]. intros (y & [K|[K|K]]); [discriminate..|]. apply in_app_or in K as [K|[K|[]]]; [|discriminate]. rewrite B; [reflexivity|exists y; auto].
  - intros s v _. eexists. split; [apply k_named|]. intros (y & [K|[]]); discriminate.
  - intros pos b ts c n _ (x & H & B). exists x. split; auto. apply k_elem; auto.
  - intros pos b1 b2 op ts us x y z n m _ (u & H1 & B1) _ (v & H2 & B2) HN _. exists (comb op u v). split; [eapply k_op; eauto|]. intros (q & K). apply in_app_or in K as [K|K]; [rewrite B1; [reflexivity|exists q; auto]|]. apply in_app_or in K as [K|K]; [destruct op; cbn [op_toks In] in K; intuition discriminate|]. rewrite B2; [destruct u; reflexivity|exists q; auto].
  - intros first k1 k2 a b c E1 E2 _. apply char_tchar in E1, E2. eexists. split; [eapply k_range; eauto|]. intros (y & [K|[K|[K|[]]]]); [destruct (char_not_byte _ _ _ _ E1 K)|discriminate|destruct (char_not_byte _ _ _ _ E2 K)].
  - intros first k1 a ts c n c' E1 _ (x & H & B) _. apply char_tchar in E1. eexists. split; [eapply k_dash; eauto|]. intros (y & [K|[K|K]]); [destruct (char_not_byte _ _ _ _ E1 K)|discriminate|]. rewrite B; [reflexivity|exists y; auto].
  - intros first a b c _. exists None. split; [apply k_byte_range|auto].
  - intros first a ts c n c' _ (x & H & B) _. exists None. split; [eapply k_byte_dash; eauto|auto].
  - intros first ts c n _ (x & H & B). exists x. split; auto. apply k_whole; auto.
  - intros first k a c E1 _. apply char_tchar in E1. eexists. split; [eapply k_char; eauto|]. intros (y & [K|[]]). destruct (char_not_byte _ _ _ _ E1 K).
  - intros c _. eexists. split; [apply k_hyphen|]. intros (y & [K|[]]). discriminate.
  - intros first a c _. exists None. split; [apply k_byte|auto].
Qed.

(** The reader *)
Fixpoint r_class (f : nat) (ts : list tok) : option (option cexpr * list tok) :=
  match f with
  | O => None
  | S f =>
      let close (wrap : cexpr -> cexpr) (first : bool) r :=
        ob (r_elem f first r) (fun p => ob (r_ops f (fst p) (snd p)) (fun q =>
          match snd q with TP e :: r2 => if e =? 93 then Some (option_map wrap (fst q), r2) else None | _ => None end)) in
      match ts with
      | TSet s :: r => Some (Some (XNamed s), r)
      | TP c :: r => if c =? 91 then match r with TP d :: r1 => if d =? 94 then close XNeg false r1 else close XPos true r | _ => close XPos true r end else None
      | _ => None
      end
  end
with r_ops (f : nat) (x : option cexpr) (ts : list tok) : option (option cexpr * list tok) :=
  match f with
  | O => None
  | S f =>
      let next op r := ob (r_elem f false r) (fun p => r_ops f (comb op x (fst p)) (snd p)) in
      match ts with
      | [] => None
      | TAnd :: r => next OAnd r
      | TMinus :: r => next OMinus r
      | TXor :: r => next OXor r
      | TP c :: r => if c =? 93 then Some (x, ts) else next OUnion ts
      | _ => next OUnion ts
      end
  end
with r_elem (f : nat) (first : bool) (ts : list tok) : option (option cexpr * list tok) :=
  match f with
  | O => None
  | S f =>
      match ts with
      | [] => None
      | k :: r =>
          match tchar first k with
          | Some a =>
              if hyphen_next r then
                if starts_class (tl r) then ob (r_class f (tl r)) (fun p => Some (dash a (fst p), snd p))
                else match tl r with k2 :: r2 => ob (tchar false k2) (fun b => Some (Some (XRange a b), r2)) | [] => None end
              else Some (Some (XChar a), r)
          | None =>
              if starts_class ts then r_class f ts
              else match k with
                   | TByte a =>
                       if hyphen_next r then
                         if starts_class (tl r) then ob (r_class f (tl r)) (fun p => Some (None, snd p)) else Some (None, tl (tl r))
                       else Some (None, r)
                   | TP d => if (d =? 45) && negb first then Some (Some (XChar 45), r) else None
                   | _ => None
                   end
          end
      end
  end.

Lemma cread_starts x ts : cread Whole x ts -> exists k r, ts = k :: r /\ forall rest, starts_class (k :: rest) = true.
Proof. intros H. remember Whole as l eqn:El. destruct H; try discriminate El; eexists; eexists; (split; [reflexivity|reflexivity]). Qed.
Lemma starts_not_tchar first k r : starts_class (k :: r) = true -> tchar first k = None.
Proof. destruct k; cbn [starts_class tchar]; try discriminate; auto. intros E. rewrite E. auto. Qed.
Lemma tchar_not_starts first k a r : tchar first k = Some a -> starts_class (k :: r) = false.
Proof. intros E. destruct (starts_class (k :: r)) eqn:S; auto. rewrite (starts_not_tchar first k r S) in E. discriminate. Qed.
Lemma tchar_head first k a : tchar first k = Some a -> elem_head first k.
Proof. intros E. unfold elem_head. split; [|split; [|split]]; [intros ->; discriminate E..|]. destruct first; intros ->; discriminate E. Qed.

Definition cread_full (l : level) (x : option cexpr) (ts : list tok) : Prop :=
  match l with
  | Whole => forall f rest, (2 * length (ts ++ rest) + 1 <= f)%nat -> r_class f (ts ++ rest) = Some (x, rest)
  | Elem first b => (exists k r, ts = k :: r /\ elem_head first k) /\ forall f rest, (b = true -> hyphen_next rest = false) ->
      (2 * length (ts ++ rest) + 2 <= f)%nat -> r_elem f first (ts ++ rest) = Some (x, rest)
  | Expr pos b => (exists k r, ts = k :: r /\ elem_head pos k) /\
      forall f rest, (b = true -> hyphen_next rest = false) -> (2 * length (ts ++ rest) + 2 <= f)%nat ->
        exists y mid f', r_elem f pos (ts ++ rest) = Some (y, mid) /\ (2 * length rest + 3 <= f')%nat /\ r_ops f y mid = r_ops f' x rest
  end.

Lemma r_ops_stop f x rest : (1 <= f)%nat -> r_ops f x (TP 93 :: rest) = Some (x, TP 93 :: rest).
Proof. destruct f; [lia|reflexivity]. Qed.

Lemma cread_all l x ts : cread l x ts -> cread_full l x ts.
Proof.
  induction 1 as [b x ts _ IH|b x ts _ IH|s|f b x ts _ IH|f b b' op x ts y us _ IH1 _ IH2 HN|f x ts H IH|f k a E| |f k m a b E1 E2|f k a x ts E H IH|f a|f a b|f a x ts H IH]; cbn [cread_full] in *.
  - destruct IH as ((k & r & -> & (_ & _ & _ & HK)) & IH). intros f rest L. destruct f as [|f]; [lia|]. cbn [app] in *. rewrite <- app_assoc in *. cbn [app length] in *.
    destruct (IH f (TP 93 :: rest)) as (y & mid & f' & E1 & L' & E2); [reflexivity|cbn [app length]; lia|]. rewrite (r_ops_stop f' x rest) in E2 by lia. cbn [app] in E1.
    assert (G : ob (r_elem f true (k :: r ++ TP 93 :: rest)) (fun p => ob (r_ops f (fst p) (snd p)) (fun q => match snd q with TP e :: r2 => if e =? 93 then Some (option_map XPos (fst q), r2) else None | _ => None end)) = Some (option_map XPos x, rest)).
    { rewrite E1. cbn [ob fst snd]. rewrite E2. reflexivity. }
    destruct k; try exact G. cbn [r_class]. change (91 =? 91) with true. cbv iota. destruct (Z.eqb_spec c 94) as [->|]; [congruence|exact G].
  - destruct IH as (_ & IH). intros f rest L. destruct f as [|f]; [lia|]. cbn [app] in *. rewrite <- app_assoc in *. cbn [app length] in *.
    destruct (IH f (TP 93 :: rest)) as (y & mid & f' & E1 & L' & E2); [reflexivity|lia|]. rewrite (r_ops_stop f' x rest) in E2 by lia.
    assert (G : ob (r_elem f false (ts ++ TP 93 :: rest)) (fun p => ob (r_ops f (fst p) (snd p)) (fun q => match snd q with TP e :: r2 => if e =? 93 then Some (option_map XNeg (fst q), r2) else None | _ => None end)) = Some (option_map XNeg x, rest)).
    { rewrite E1. cbn [ob fst snd]. rewrite E2. reflexivity. }
    exact G.
  - intros f rest L. destruct f as [|f]; [lia|]. reflexivity.
  - destruct IH as (HD & IH). split; auto. intros g rest HB L. exists x, rest, g. split; [apply IH; auto|]. split; auto. destruct HD as (k & r & -> & _). cbn [app length] in L. rewrite app_length in L. lia.
  - destruct IH1 as ((k & r & -> & HK) & IH1). destruct IH2 as ((k2 & r2 & -> & (A1 & A2 & A3 & A4)) & IH2). split; [exists k, (r ++ op_toks op ++ k2 :: r2); auto|].
    intros g rest HB L. rewrite <- app_assoc in *. destruct (IH1 g ((op_toks op ++ k2 :: r2) ++ rest)) as (y' & mid & f' & E1 & L' & E2); auto.
    { intros Hb. specialize (HN Hb). destruct op; exact HN. }
    exists y', mid. assert (L3 : (2 * length ((k2 :: r2) ++ rest) + 3 <= f')%nat) by (rewrite !app_length in *; lia). destruct f' as [|f']; [lia|].
    exists f'. split; auto. split; [cbn [app length] in L3; rewrite app_length in L3; lia|]. rewrite E2. rewrite <- app_assoc.
    assert (G : ob (r_elem f' false ((k2 :: r2) ++ rest)) (fun p => r_ops f' (comb op x (fst p)) (snd p)) = r_ops f' (comb op x y) rest).
    { rewrite IH2 by (auto; lia). reflexivity. }
    destruct op; cbn [op_toks app r_ops]; try exact G.
    destruct k2; try congruence; try exact G. destruct (Z.eqb_spec c 93) as [->|]; [congruence|exact G].
  - destruct (cread_starts _ _ H) as (k & r & -> & S). split; [exists k, r; split; auto; apply (starts_head f k r), S|]. intros g rest _ L. destruct g as [|g]; [cbn [app length] in L; lia|]. pose proof (IH g rest) as IH'. cbn [app length r_elem] in *. rewrite (starts_not_tchar f k [] (S [])), S. apply IH'. lia.
  - split; [eauto using tchar_head|]. intros g rest HB L. destruct g as [|g]; [cbn [app length] in L; lia|]. cbn [app r_elem]. rewrite E, (HB eq_refl). reflexivity.
  - split; [exists (TP 45), []; split; auto; repeat split; discriminate|]. intros g rest _ L. destruct g as [|g]; [cbn [app length] in L; lia|]. reflexivity.
  - split; [eauto using tchar_head|]. intros g rest _ L. destruct g as [|g]; [cbn [app length] in L; lia|]. cbn [app r_elem]. rewrite E1. change (hyphen_next (TP 45 :: m :: rest)) with true. cbn [tl]. rewrite (tchar_not_starts _ _ _ _ E2), E2. reflexivity.
  - split; [eauto using tchar_head|]. intros g rest _ L. destruct g as [|g]; [cbn [app length] in L; lia|]. cbn [app length r_elem] in *. rewrite E. change (hyphen_next (TP 45 :: ts ++ rest)) with true. cbn [tl].
    destruct (cread_starts _ _ H) as (k' & r & -> & S). cbn [app] in *. rewrite S. pose proof (IH g rest) as IH'. cbn [app] in IH'.
    assert (G : ob (r_class g (k' :: r ++ rest)) (fun p => Some (dash a (fst p), snd p)) = Some (dash a x, rest)) by (rewrite IH' by lia; reflexivity). exact G.
  - split; [eauto using byte_head|]. intros g rest HB L. destruct g as [|g]; [cbn [app length] in L; lia|]. cbn [app r_elem tchar starts_class]. rewrite (HB eq_refl). reflexivity.
  - split; [eauto using byte_head|]. intros g rest _ L. destruct g as [|g]; [cbn [app length] in L; lia|]. reflexivity.
  - split; [eauto using byte_head|]. intros g rest _ L. destruct g as [|g]; [cbn [app length] in L; lia|]. cbn [app length r_elem tchar] in *. change (starts_class (TByte a :: TP 45 :: ts ++ rest)) with false. change (hyphen_next (TP 45 :: ts ++ rest)) with true. cbn [tl]. cbv iota.
    destruct (cread_starts _ _ H) as (k' & r & -> & S). cbn [app] in *. rewrite S. pose proof (IH g rest) as IH'. cbn [app] in IH'.
    assert (G : ob (r_class g (k' :: r ++ rest)) (fun p => Some (@None cexpr, snd p)) = Some (None, rest)) by (rewrite IH' by lia; reflexivity). exact G.
Qed.

Lemma written_once e e' ts : written Whole e ts -> written Whole e' ts -> e = e'.
Proof.
  intros H G. apply written_cread, cread_all in H, G. cbn [cread_full] in *. specialize (H _ [] (le_n _)). rewrite (G _ [] (le_n _)) in H. injection H as <-. auto.
Qed.

(** * Repetition counts and switches *)

Fixpoint digits (ts : list tok) : list Z * list tok :=
  match ts with TDigit d :: r => let (a, b) := digits r in (d :: a, b) | _ => ([], ts) end.
Definition not_digit (ts : list tok) : Prop := match ts with TDigit _ :: _ => False | _ => True end.
Lemma digits_full cs rest : not_digit rest -> digits (map TDigit cs ++ rest) = (cs, rest).
Proof. intros N. induction cs as [|c cs IH]; cbn [map app digits]; [destruct rest as [|[]]; cbn in *; auto; contradiction|]. rewrite IH. auto. Qed.

Definition r_quant (ts : list tok) : option (option (Z * option Z) * list tok) :=
  match ts with
  | TP c :: r =>
      if c =? 42 then Some (Some (0, None), r)
      else if c =? 43 then Some (Some (1, None), r)
      else if c =? 63 then Some (Some (0, Some 1), r)
      else if c =? 123 then
        let (a, r1) := digits r in
        match r1 with
        | TP d :: r2 =>
            if d =? 125 then Some (Some (decimal a, Some (decimal a)), r2)
            else let (b, r3) := digits r2 in Some (Some (decimal a, match b with [] => None | _ => Some (decimal b) end), tl r3)
        | _ => None
        end
      else Some (None, ts)
  | _ => Some (None, ts)
  end.
Lemma counts_full us a b rest : counts_as us a b -> r_quant (us ++ rest) = Some (Some (a, b), rest).
Proof.
  intros [| | |cs N|cs N|cs ds N M L]; try reflexivity; cbn [app r_quant]; change (123 =? 42) with false; change (123 =? 43) with false; change (123 =? 63) with false; change (123 =? 123) with true; cbv iota; rewrite <- app_assoc; rewrite digits_full by exact Logic.I; cbn [app]; try reflexivity.
  change (44 =? 125) with false. cbv iota. rewrite <- app_assoc. rewrite digits_full by exact Logic.I. destruct ds; [congruence|reflexivity].
Qed.

Lemma turns_made on cs : Forall (fun c => c = 97 \/ c = 105) cs -> forall o, exists o', turns on (map TP cs) o = Some o'.
Proof. induction 1 as [|c cs [->| ->] _ IH]; intros o; cbn [map turns turn]; eauto; apply IH. Qed.
Lemma tp_map cs ds : map TP cs = map TP ds -> cs = ds.
Proof. revert ds. induction cs as [|c cs IH]; intros [|d ds] E; try discriminate; auto. cbn in E. injection E as -> E. f_equal. auto. Qed.
Lemma opts_eq (x y : opts) : ascii x = ascii y -> cased x = cased y -> x = y.
Proof. destruct x, y. cbn. intros -> ->. auto. Qed.
Lemma switches_switch o ts o' : switches o ts o' -> switch o ts o'.
Proof.
  intros [on o1 (F & NE & A & C)|on off o1 NO (F & NE & A & C)].
  - rewrite app_nil_r in *. destruct (turns_made true on F o) as (o2 & E). destruct (turns_flags _ _ _ _ E) as (cs & M & _ & A2 & C2). apply tp_map in M. subst cs. cbn [existsb] in A, C.
    assert (o2 = o1). { apply opts_eq; [rewrite A, A2|rewrite C, C2]; auto. } subst o2. apply sw_on; auto. destruct on; [congruence|discriminate].
  - apply Forall_app in F as [F1 F2]. destruct (turns_made true on F1 o) as (o2 & E). destruct (turns_made false off F2 o2) as (o3 & E'). destruct (turns_flags _ _ _ _ E) as (cs & M & _ & A2 & C2). apply tp_map in M. subst cs. destruct (turns_flags _ _ _ _ E') as (cs & M & _ & A3 & C3). apply tp_map in M. subst cs.
    assert (o3 = o1). { apply opts_eq; [rewrite A, A3, A2|rewrite C, C3, C2]; auto. } subst o3.
    assert (N' : map TP off <> []) by (destruct off; [congruence|discriminate]). destruct on as [|c on].
    + cbn [map app] in *. cbn [turns] in E. injection E as <-. apply sw_off; auto.
    + eapply sw_both; eauto. discriminate.
Qed.

(** * Patterns *)

Section Read.
Variable I : icu.
Variable R : N -> N -> Prop.
Variable enc : encoder.
Local Notation says := (says I R enc).

Definition reading : Type := opts * language * list tok.
Definition r_simple (o : opts) (k : tok) : option language :=
  match k with
  | TChar c | TDigit c => Some (one_of enc (counts R o (Z.to_N c)))
  | TP c => if existsb (Z.eqb c) [36; 40; 41; 42; 43; 46; 63; 91; 94; 124] then if c =? 46 then Some (one_of enc (fun _ => True)) else None
            else Some (one_of enc (counts R o (Z.to_N c)))
  | TByte b => Some (eq [Z.to_N b])
  | TMinus => Some (followed (encodes enc 45) (encodes enc 45))
  | TAnd => Some (followed (encodes enc 38) (encodes enc 38))
  | TXor => Some (followed (encodes enc 126) (encodes enc 126))
  | _ => None
  end.

Fixpoint r_alt (f : nat) (o : opts) (ts : list tok) : option reading :=
  match f with
  | O => None
  | S f =>
      match p_switch o ts with
      | Some (o1, r) => r_alt f o1 r
      | None => ob (r_concat f o ts) (fun '(o1, L, r) => r_alts f o1 L r)
      end
  end
with r_alts (f : nat) (o : opts) (L : language) (ts : list tok) : option reading :=
  match f with
  | O => None
  | S f =>
      match ts with
      | TP c :: r => if c =? 124 then ob (r_concat f o r) (fun '(o1, M, r1) => r_alts f o1 (either L M) r1) else Some (o, L, ts)
      | _ => Some (o, L, ts)
      end
  end
with r_concat (f : nat) (o : opts) (ts : list tok) : option reading :=
  match f with
  | O => None
  | S f => ob (r_rep f o ts) (fun '(o1, L, r) => r_concats f o1 L r)
  end
with r_concats (f : nat) (o : opts) (L : language) (ts : list tok) : option reading :=
  match f with
  | O => None
  | S f =>
      let more := match p_switch o ts with
                  | Some (o1, r) => r_concats f o1 L r
                  | None => ob (r_rep f o ts) (fun '(o1, M, r) => r_concats f o1 (followed L M) r)
                  end in
      match ts with
      | [] => Some (o, L, ts)
      | TP c :: _ => if (c =? 124) || (c =? 41) then Some (o, L, ts) else more
      | _ => more
      end
  end
with r_rep (f : nat) (o : opts) (ts : list tok) : option reading :=
  match f with
  | O => None
  | S f =>
      ob (r_atom f o ts) (fun '(o1, L, r) => ob (r_quant r) (fun q =>
        match fst q with
        | None => Some (o1, L, r)
        | Some (a, b) => Some (o1, repeated a b L, match snd q with TP c :: r1 => if c =? 63 then r1 else snd q | _ => snd q end)
        end))
  end
with r_atom (f : nat) (o : opts) (ts : list tok) : option reading :=
  match f with
  | O => None
  | S f =>
      if starts_class ts then
        ob (r_class (2 * length ts + 1) ts) (fun p =>
          match fst p with
          | Some e => Some (o, one_of enc (mean I R o e), snd p)
          | None => match p_class I o (2 * length ts + 1) ts with Ok (c, _, _) => Some (o, lang (enc_atom enc) (cset_node c), snd p) | _ => None end
          end)
      else
      match ts with
      | [] => None
      | k :: r =>
          match r_simple o k with
          | Some L => Some (o, L, r)
          | None => ob (r_alt f o r) (fun '(_, L, r3) => match r3 with TP e :: r4 => if e =? 41 then Some (o, L, r4) else None | _ => None end)
          end
      end
  end.

Definition says_begins (k : rank) (ts : list tok) : Prop := match k with RAlt => begins_alt ts | _ => begins ts end.
Lemma r_simple_head o k L : r_simple o k = Some L -> atom_head k /\ k <> TP 40 /\ forall r, starts_class (k :: r) = false.
Proof.
  intros E. split; [split|split].
  - intros ->. discriminate E.
  - intros c -> H. cbn [In] in H. destruct H as [<-|[<-|[<-|[<-|[<-|[]]]]]]; discriminate E.
  - intros ->. discriminate E.
  - intros r. destruct k; try reflexivity; [|discriminate E]. cbn [starts_class]. destruct (Z.eqb_spec c 91) as [->|]; [discriminate E|reflexivity].
Qed.
Lemma simple_begins o k L : r_simple o k = Some L -> begins [k].
Proof.
  intros E. destruct (r_simple_head _ _ _ E) as (A & B & _). split; [exists k, []; auto|]. intros o1 rest. cbn [app p_switch]. destruct k as [c| | | | | | | | | | | | |]; try reflexivity. destruct rest as [|[d| | | | | | | | | | | | |] r]; try reflexivity. destruct (Z.eqb_spec c 40) as [->|]; [congruence|reflexivity].
Qed.
Lemma class_begins x ts : cread Whole x ts -> begins ts.
Proof.
  intros H. destruct (cread_starts _ _ H) as (k & r & -> & S). specialize (S []). split.
  - exists k, r. split; auto. split; [intros ->; discriminate S|]. intros c -> Hc. cbn [In] in Hc. cbn [starts_class] in S. apply Z.eqb_eq in S. lia.
  - intros o rest. cbn [app p_switch]. destruct k as [c| | | | | | | | | | | | |]; try reflexivity. cbn [starts_class] in S. apply Z.eqb_eq in S. subst c. destruct (r ++ rest) as [|[d| | | | | | | | | | | | |] q]; reflexivity.
Qed.
Lemma char_simple o k c : k = TChar c \/ k = TDigit c \/ (k = TP c /\ ~ In c [36; 40; 41; 42; 43; 46; 63; 91; 94; 124]) -> r_simple o k = Some (one_of enc (counts R o (Z.to_N c))).
Proof.
  intros [->|[->|(-> & N)]]; try reflexivity. cbn [r_simple]. destruct (existsb _ _) eqn:E; auto. apply existsb_exists in E as (y & Hy & Ey). apply Z.eqb_eq in Ey. subst y. contradiction.
Qed.
Lemma twice_simple o k c : (k, c) = (TMinus, 45) \/ (k, c) = (TAnd, 38) \/ (k, c) = (TXor, 126) -> r_simple o k = Some (followed (encodes enc c) (encodes enc c)).
Proof. intros [E|[E|E]]; injection E as -> ->; reflexivity. Qed.

Lemma says_begin k o ts o' L : says k o ts o' L -> says_begins k ts.
Proof.
  induction 1; cbn [says_begins] in *; auto using begins_app.
  - destruct IHsays as ((k & r & -> & K) & _). exists k, r. auto using head_63.
  - destruct IHsays1 as (k & r & -> & K). exists k, (r ++ TP 124 :: us). auto.
  - apply switches_switch in H. destruct (switch_starts _ _ _ H) as (r & ->). exists (TP 40), ((TP 63 :: r) ++ us). split; auto. discriminate.
  - destruct IHsays as (k & r & -> & K). split.
    + exists (TP 40), ((k :: r) ++ [TP 41]). split; auto. split; [discriminate|]. intros c E. injection E as <-. simpl. lia.
    + intros o1 rest. cbn [app p_switch]. destruct k as [c| | | | | | | | | | | | |]; try reflexivity. destruct (Z.eqb_spec c 63) as [->|]; [congruence|]. rewrite andb_false_r. reflexivity.
  - eapply (simple_begins o). apply char_simple. eauto.
  - apply (simple_begins o _ (one_of enc (fun _ => True))). reflexivity.
  - apply (simple_begins o _ (eq [Z.to_N b])). reflexivity.
  - eapply (simple_begins o). apply twice_simple. eauto.
  - eapply class_begins, written_cread; eauto.
  - destruct (proj1 (class_cread I o) _ _ _ H) as (x & X & _). eapply class_begins; eauto.
Qed.

Definition says_full (k : rank) (o : opts) (ts : list tok) (o' : opts) (L : language) : Prop :=
  match k with
  | RAlt => forall f rest, stops rest -> (6 * length (ts ++ rest) + 5 <= f)%nat -> exists f', (6 * length rest + 5 <= f')%nat /\ r_alt f o (ts ++ rest) = r_alts f' o' L rest
  | RCat b => forall f rest, after b rest -> (6 * length (ts ++ rest) + 3 <= f)%nat ->
      exists o1 M mid f', r_rep f o (ts ++ rest) = Some (o1, M, mid) /\ (6 * length rest + 4 <= f')%nat /\ r_concats f o1 M mid = r_concats f' o' L rest
  | RRep b => forall f rest, after b rest -> (6 * length (ts ++ rest) + 2 <= f)%nat -> r_rep f o (ts ++ rest) = Some (o', L, rest)
  | RAtom => forall f rest, (6 * length (ts ++ rest) + 1 <= f)%nat -> r_atom f o (ts ++ rest) = Some (o', L, rest)
  end.
Lemma r_concats_stop f o L rest : stops rest -> (1 <= f)%nat -> r_concats f o L rest = Some (o, L, rest).
Proof. intros H N. destruct f; [lia|]. destruct H as [->|[(r & ->)|(r & ->)]]; reflexivity. Qed.
Lemma r_alts_stop f o L rest : (rest = [] \/ exists r, rest = TP 41 :: r) -> (1 <= f)%nat -> r_alts f o L rest = Some (o, L, rest).
Proof. intros H N. destruct f; [lia|]. destruct H as [->|(r & ->)]; reflexivity. Qed.
Lemma r_concat_whole b o ts o' L f rest : says_full (RCat b) o ts o' L -> stops rest -> (6 * length (ts ++ rest) + 4 <= f)%nat -> r_concat f o (ts ++ rest) = Some (o', L, rest).
Proof.
  intros H S N. destruct f as [|f]; [lia|]. destruct (H f rest (stops_after b rest S) ltac:(lia)) as (o1 & M & mid & f' & E1 & L' & E2). rewrite (r_concats_stop f' o' L rest) in E2 by (auto; lia).
  assert (G : ob (r_rep f o (ts ++ rest)) (fun '(o1, L, r) => r_concats f o1 L r) = Some (o', L, rest)) by (rewrite E1; exact E2). exact G.
Qed.
Lemma simple_full o k L : r_simple o k = Some L -> says_full RAtom o [k] o L.
Proof. intros E f rest N. destruct (r_simple_head _ _ _ E) as (_ & _ & S). destruct f as [|f]; [lia|]. cbn [app r_atom]. rewrite S, E. reflexivity. Qed.

Lemma begins_len ts : begins ts -> (1 <= length ts)%nat.
Proof. intros ((k & r & -> & _) & _). simpl. lia. Qed.
Lemma says_all k o ts o' L : says k o ts o' L -> says_full k o ts o' L.
Proof.
  induction 1 as [b o ts o' L H IH|b o ts o1 L us o2 M H1 IH1 H2 IH2|o ts o1 us o2 L SW H IH|b o ts o' L H IH|b b' o ts o1 L us o2 M H1 IH1 H2 IH2 HB|b o ts o1 L us o2 H IH SW|o ts o' L H IH|o ts o' L us a b H IH C|o ts o' L us a b H IH C|o ts o' L H IH|o k c K|o|o b|o k c K|o ts e W|o ts c n b H HI];
    try (apply simple_full; auto using char_simple, twice_simple; reflexivity); cbn [says_full] in *.
  - intros f rest S N. apply says_begin in H. cbn [says_begins] in H. destruct f as [|f]; [lia|]. exists f. split; [apply begins_len in H; rewrite app_length in N; lia|].
    assert (G : match p_switch o (ts ++ rest) with Some (o1, r) => r_alt f o1 r | None => ob (r_concat f o (ts ++ rest)) (fun '(o1, L, r) => r_alts f o1 L r) end = r_alts f o' L rest).
    { rewrite (proj2 H o rest). rewrite (r_concat_whole b o ts o' L f rest IH S) by lia. reflexivity. }
    exact G.
  - intros f rest S N. apply says_begin in H2. cbn [says_begins] in H2. apply begins_len in H2. rewrite <- app_assoc in *. cbn [app] in *.
    destruct (IH1 f (TP 124 :: us ++ rest)) as (f' & L' & E); [right; left; eauto|auto|]. destruct f' as [|f']; [lia|]. cbn [length] in L'. exists f'. split; [rewrite app_length in L'; lia|]. rewrite E.
    assert (G : ob (r_concat f' o1 (us ++ rest)) (fun '(o3, M, r1) => r_alts f' o3 (either L M) r1) = r_alts f' o2 (either L M) rest).
    { rewrite (r_concat_whole b o1 us o2 M f' rest IH2 S) by lia. reflexivity. }
    exact G.
  - intros f rest S N. apply switches_switch in SW. pose proof (switch_starts _ _ _ SW) as (r & Er). rewrite <- app_assoc in *. destruct f as [|f]; [lia|].
    destruct (IH f rest S) as (f' & L' & E); [rewrite Er in N; cbn [app length] in N; rewrite app_length in N; lia|]. exists f'. split; auto.
    assert (G : match p_switch o (ts ++ us ++ rest) with Some (o1, r) => r_alt f o1 r | None => ob (r_concat f o (ts ++ us ++ rest)) (fun '(o1, L, r) => r_alts f o1 L r) end = r_alts f' o2 L rest).
    { rewrite (switch_full _ _ _ _ SW). exact E. }
    exact G.
  - intros f rest A N. exists o', L, rest, f. split; [apply IH; auto; lia|]. split; auto. apply says_begin in H. cbn [says_begins] in H. apply begins_len in H. rewrite app_length in N. lia.
  - intros f rest A N. apply says_begin in H2. cbn [says_begins] in H2. rewrite <- app_assoc in *.
    destruct (IH1 f (us ++ rest)) as (o3 & M3 & mid & f' & E1 & L' & E2); [apply begins_after; auto|auto|].
    { intros Hb. specialize (HB Hb). destruct us as [|[c| | | | | | | | | | | | |] r]; try reflexivity. cbn [brace_next]. apply Z.eqb_neq. intros ->. apply (HB r). auto. }
    exists o3, M3, mid. destruct f' as [|f']; [lia|]. exists f'. split; auto.
    split; [apply begins_len in H2; rewrite app_length in L'; lia|]. rewrite E2.
    assert (G : match p_switch o1 (us ++ rest) with Some (o1, r) => r_concats f' o1 L r | None => ob (r_rep f' o1 (us ++ rest)) (fun '(o1, M, r) => r_concats f' o1 (followed L M) r) end = r_concats f' o2 (followed L M) rest).
    { rewrite (proj2 H2 o1 rest), IH2 by (auto; lia). reflexivity. }
    destruct H2 as ((k & r & -> & (K1 & K2)) & _). cbn [app] in *. destruct k as [c| | | | | | | | | | | | |]; try congruence; try exact G. specialize (K2 c eq_refl). cbn [In] in K2. cbn [r_concats].
    destruct (Z.eqb_spec c 124); [lia|]. destruct (Z.eqb_spec c 41); [lia|]. exact G.
  - intros f rest A N. apply switches_switch in SW. rewrite <- app_assoc in *. destruct (switch_starts _ _ _ SW) as (r & Er).
    destruct (IH f (us ++ rest)) as (o3 & M3 & mid & f' & E1 & L' & E2); [rewrite Er; intros c q E; injection E as <- _; lia|auto|]. exists o3, M3, mid. destruct f' as [|f']; [lia|]. exists f'. split; auto.
    split; [rewrite Er in L'; cbn [app length] in L'; rewrite app_length in L'; lia|]. rewrite E2.
    assert (G : match p_switch o1 (us ++ rest) with Some (o1, r) => r_concats f' o1 L r | None => ob (r_rep f' o1 (us ++ rest)) (fun '(o1, M, r) => r_concats f' o1 (followed L M) r) end = r_concats f' o2 L rest).
    { rewrite (switch_full _ _ _ _ SW). reflexivity. }
    rewrite Er in *. exact G.
  - intros f rest A N. destruct f as [|f]; [lia|].
    assert (Q : r_quant rest = Some (None, rest)).
    { destruct rest as [|[c| | | | | | | | | | | | |] r]; try reflexivity. destruct (A c r eq_refl) as (N1 & N2 & N3 & N4). specialize (N4 eq_refl). apply Z.eqb_neq in N1, N2, N3, N4. cbn [r_quant]. rewrite N1, N2, N3, N4. reflexivity. }
    cbn [r_rep]. rewrite IH by lia. cbn [ob]. rewrite Q. reflexivity.
  - intros f rest A N. rewrite <- app_assoc in *. destruct f as [|f]; [lia|]. cbn [r_rep]. rewrite IH by lia. cbn [ob]. rewrite (counts_full _ _ _ _ C). cbn [ob fst snd]. destruct rest as [|[c| | | | | | | | | | | | |] r]; try reflexivity. destruct (A c r eq_refl) as (_ & _ & N3 & _). apply Z.eqb_neq in N3. rewrite N3. reflexivity.
  - intros f rest A N. rewrite <- !app_assoc in *. cbn [app] in *. destruct f as [|f]; [lia|]. cbn [r_rep]. rewrite IH by lia. cbn [ob]. rewrite (counts_full _ _ _ _ C). reflexivity.
  - intros f rest N. destruct f as [|f]; [lia|]. cbn [app length] in *. rewrite <- app_assoc in *. cbn [app] in *.
    destruct (IH f (TP 41 :: rest)) as (f' & L' & E); [right; right; eauto|lia|]. rewrite (r_alts_stop f' o' L (TP 41 :: rest)) in E by (eauto; lia).
    assert (G : ob (r_alt f o (ts ++ TP 41 :: rest)) (fun '(_, L, r3) => match r3 with TP e :: r4 => if e =? 41 then Some (o, L, r4) else None | _ => None end) = Some (o, L, rest)) by (rewrite E; reflexivity).
    exact G.
  - intros f rest N. destruct f as [|f]; [lia|]. cbn [r_atom]. apply written_cread in W. destruct (cread_starts _ _ W) as (k & r & E & S). apply cread_all in W. cbn [cread_full] in W. rewrite W by lia. rewrite E. cbn [app]. rewrite S. reflexivity.
  - intros f rest N. destruct f as [|f]; [lia|]. cbn [r_atom]. destruct (proj1 (class_cread I o) _ _ _ H) as (x & X & B). rewrite (B (ex_intro _ b HI)) in X. destruct (cread_starts _ _ X) as (k & r & E & S). apply cread_all in X. cbn [cread_full] in X. rewrite X by lia.
    rewrite (proj1 (class_all I o) ts c n H) by lia. rewrite E. cbn [app]. rewrite S. reflexivity.
Qed.

(** The tokens of a pattern stand for one language. *)
Lemma says_once o ts o1 L o2 M : says RAlt o ts o1 L -> says RAlt o ts o2 M -> o1 = o2 /\ L = M.
Proof.
  intros H G. apply says_all in H, G. cbn [says_full] in *. destruct (H (6 * length ts + 5)%nat []) as (f & F & E); [left; auto|rewrite app_nil_r; lia|]. destruct (G (6 * length ts + 5)%nat []) as (g & F' & E'); [left; auto|rewrite app_nil_r; lia|].
  rewrite E in E'. cbn [length] in *. rewrite !r_alts_stop in E' by (auto; lia). injection E' as -> ->. auto.
Qed.
End Read.
