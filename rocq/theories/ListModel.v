(** lg_add_pattern_list: src/lib/lightgrep_c_api.cpp:206-316, include/c_api_util.h:31-48.
    Text is a list of bytes.  Whether a pattern parses, whether it can be added in an encoding and what
    boost::lexical_cast<bool> makes of a text (None: it throws) are parameters. The error list is given as
    the Index of each LG_Error; it is assumed to be empty at the start, as the documentation asks. *)
From Verif Require Import Base.
Open Scope N_scope.

(** boost::tokenizer with char_separator: runs of characters which are no separators; empty ones dropped. *)
Fixpoint tokens_go (sep : N -> bool) (cur : list N) (s : list N) : list (list N) :=
  match s with
  | [] => match cur with [] => [] | _ => [cur] end
  | c :: t => if sep c then match cur with [] => tokens_go sep [] t | _ => cur :: tokens_go sep [] t end
              else tokens_go sep (cur ++ [c]) t
  end.
Definition tokens (sep : N -> bool) (s : list N) : list (list N) := tokens_go sep [] s.
Definition is_eol (c : N) : bool := (c =? 13) || (c =? 10).
Definition is_tab (c : N) : bool := c =? 9.
Definition is_comma (c : N) : bool := c =? 44.

Record opts := mkOpts { o_fixed : bool; o_nocase : bool; o_unicode : bool }.

Record env := mkEnv {
  e_parses : list N -> opts -> bool;
  e_adds : list N -> opts -> list N -> bool;
  e_bool : list N -> option bool;
  e_encs : list (list N);          (* defaultEncodings *)
  e_opts : opts                    (* defaultOptions *)
}.

(** What has been added (pattern, options, encoding, line) and the Index of each error. *)
Record acc := mkAcc { a_added : list (list N * opts * list N * Z); a_errs : list Z }.

(** The loop over the encodings, :227-234. *)
Fixpoint add_encs (e : env) (pat : list N) (o : opts) (encs : list (list N)) (lnum : Z) (a : acc) : acc :=
  match encs with
  | [] => a
  | x :: t =>
      if e_adds e pat o x then add_encs e pat o t lnum (mkAcc (a_added a ++ [(pat, o, x, lnum)]) (a_errs a))
      else add_encs e pat o t lnum (mkAcc (a_added a) (a_errs a ++ [lnum]))
  end.
(** addPatternHelper, :207-235; [slot]: an error pointer was given.  Without one, *err is read (:219), or
    written to (:106) when the pattern does not parse. *)
Definition helper (e : env) (slot : bool) (pat : list N) (o : opts) (encs : list (list N)) (lnum : Z) (a : acc) : res acc :=
  if slot then
    if e_parses e pat o then Ok (add_encs e pat o encs lnum a) else Ok (mkAcc (a_added a) (a_errs a ++ [lnum]))
  else UB.

(** One line, :262-310; Throw is the exception of lexical_cast. The acc thrown away is what had been
    added by then, which [add_lines] keeps. *)
Definition add_line (e : env) (slot : bool) (line : list N) (lnum : Z) (a : acc) : res acc :=
  let note := if slot then mkAcc (a_added a) (a_errs a ++ [lnum]) else a in
  match tokens is_tab line with
  | [] => Ok note
  | [pat] => helper e slot pat (e_opts e) (e_encs e) lnum a
  | pat :: el :: rest =>
      match tokens is_comma el with
      | [] => Ok note
      | encs =>
          let bool_of s := match e_bool e s with Some b => Ok b | None => Throw end in
          o <- match rest with
               | [] => Ok (e_opts e)
               | f :: rest1 =>
                   fx <- bool_of f ;;
                   match rest1 with
                   | [] => Ok (mkOpts fx (o_nocase (e_opts e)) (o_unicode (e_opts e)))
                   | c :: rest2 =>
                       nc <- bool_of c ;;
                       match rest2 with
                       | [] => Ok (mkOpts fx nc (o_unicode (e_opts e)))
                       | u :: _ => un <- bool_of u ;; Ok (mkOpts fx nc un)
                       end
                   end
               end ;;
          helper e slot pat o encs lnum a
      end
  end.

(** addPatternList and the trap around it, :296-316: when an exception escapes, the new error is stored over
    the head of the list. *)
Fixpoint add_lines (e : env) (slot : bool) (lines : list (list N)) (lnum : Z) (a : acc) : res (acc * Z) :=
  match lines with
  | [] => Ok (a, if slot then (-1)%Z else 0%Z)
  | l :: t =>
      match add_line e slot l lnum a with
      | Ok a' => add_lines e slot t (lnum + 1)%Z a'
      | Throw => Ok (mkAcc (a_added a) (if slot then [(-1)%Z] else []), (-1)%Z)
      | UB => UB
      | Fuel => Fuel
      end
  end.
Definition lg_add_pattern_list (e : env) (slot : bool) (text : list N) : res (acc * Z) :=
  add_lines e slot (tokens is_eol text) 0 (mkAcc [] []).
