(** Macros: how token streams, patterns and rules are read, spade-parser/src/lib.rs and
    spade-parser/src/items.rs, and what the two built-in macros stand for,
    spade-ast-lowering/src/lib.rs.

    Text is a list of tokens; after its last token there are only [Eof] tokens, however many are
    taken (lib.rs:3150-3188 [next_token_helper], 3078-3090 [eat_unconditional]).  Left out:
    locations, messages, lexing errors, and [i32] overflow of the nesting of delimiters. *)
From Coq Require Import List NArith Arith Bool String.
Import ListNotations.
Open Scope nat_scope. Open Scope string_scope. Open Scope list_scope.

(** spade-ast/src/lib.rs [TokenKind], as far as told apart here *)
Inductive tok :=
| Dollar | OpenParen | CloseParen | OpenBrace | CloseBrace | OpenBracket | CloseBracket
| Colon | Comma | FatArrow | Asterisk | Plus | QuestionMark
| Ident (s : string) | Str (s : string) | Other (n : nat) | Eof.
Definition tok_eqb (a b : tok) : bool :=
  match a, b with
  | Dollar, Dollar | OpenParen, OpenParen | CloseParen, CloseParen | OpenBrace, OpenBrace | CloseBrace, CloseBrace
  | OpenBracket, OpenBracket | CloseBracket, CloseBracket | Colon, Colon | Comma, Comma | FatArrow, FatArrow
  | Asterisk, Asterisk | Plus, Plus | QuestionMark, QuestionMark | Eof, Eof => true
  | Ident s, Ident t | Str s, Str t => String.eqb s t
  | Other n, Other m => Nat.eqb n m
  | _, _ => false
  end.

(** [Fuel]: no end within the fuel *)
Inductive res (A : Type) := Got (a : A) (rest : list tok) | Err | Fuel.
Arguments Got {A}. Arguments Err {A}. Arguments Fuel {A}.
Definition bind {A B} (x : res A) (k : A -> list tok -> res B) : res B := match x with Got a r => k a r | Err => Err | Fuel => Fuel end.
Definition then_ {A B} (f : A -> B) (x : res A) : res B := bind x (fun a r => Got (f a) r).

(** lib.rs:3105-3117 [peek] *)
Definition peek (ts : list tok) : tok := match ts with t :: _ => t | [] => Eof end.
(** lib.rs:3078-3090 [eat_unconditional]: the token is [peek ts], what is left [tl ts] *)
(** lib.rs:3019-3057 [eat], for kinds other than [>] *)
Definition eat {A} (k : tok) (ts : list tok) (f : list tok -> res A) : res A := if tok_eqb (peek ts) k then f (tl ts) else Err.
(** lib.rs:198-207 [identifier] *)
Definition identifier (ts : list tok) : res string := match peek ts with Ident s => Got s (tl ts) | _ => Err end.

(** lib.rs:2675-2693, the loop of [enclosed_token_stream] *)
Fixpoint stream (fuel : nat) (open close : tok) (nesting : nat) (ts : list tok) : res (list tok) :=
  match fuel with
  | 0 => Fuel
  | S fuel =>
      let t := peek ts in
      if negb (tok_eqb t close) || (Nat.ltb 0 nesting) then
        then_ (cons t) (stream fuel open close
          (if tok_eqb t open then S nesting else if tok_eqb t close then pred nesting else nesting) (tl ts))
      else Got [] ts
  end.
(** lib.rs:2662-2694 [enclosed_token_stream], with 2795-2831 [surrounded] *)
Definition enclosed_token_stream (fuel : nat) (open close : tok) (ts : list tok) : res (list tok) :=
  eat open ts (fun r => bind (stream fuel open close 0 r) (fun l r => eat close r (fun r => Got l r))).
(** lib.rs:2658-2660 [macro_template] *)
Definition macro_template (fuel : nat) (ts : list tok) : res (list tok) := enclosed_token_stream fuel OpenBrace CloseBrace ts.

(** spade-ast/src/lib.rs:179-202 [MacroRepetitions], [MacroPattern] *)
Inductive reps := Optional | Many0 | Many1.
Inductive mpat :=
| MToken (t : tok)
| MRepeated (parts : list mpat) (delim : option tok) (r : reps)
| MEnclosed (parts : list mpat) (open close : tok)
| MFragment (name kind : string).

(** lib.rs:2566-2590 the delimiter of a repetition *)
Definition p_delim (ts : list tok) : res (option tok) :=
  match peek ts with
  | OpenBrace | OpenBracket | OpenParen | CloseBrace | CloseBracket | CloseParen => Err
  | Asterisk | Plus | QuestionMark => Got None ts
  | t => Got (Some t) (tl ts)
  end.
(** lib.rs:2592-2613 *)
Definition p_reps (ts : list tok) : res reps :=
  match peek ts with
  | Asterisk => Got Many0 (tl ts)
  | Plus => Got Many1 (tl ts)
  | QuestionMark => Got Optional (tl ts)
  | _ => Err
  end.
(** lib.rs:2508-2656 [macro_pattern] *)
Fixpoint macro_pattern (fuel : nat) (ts : list tok) : res mpat :=
  match fuel with
  | 0 => Fuel
  | S fuel =>
      let enclosed close := bind (parts fuel close (tl ts)) (fun l r => Got (MEnclosed l (peek ts) (peek r)) (tl r)) in
      match peek ts with
      | Dollar =>
          let r := tl ts in
          match peek r with
          | Ident name => eat Colon (tl r) (fun r => then_ (MFragment name) (identifier r))
          | OpenParen =>
              bind (parts fuel CloseParen (tl r)) (fun l r => bind (p_delim (tl r)) (fun d r => then_ (MRepeated l d) (p_reps r)))
          | _ => Err
          end
      | OpenBrace => enclosed CloseBrace
      | OpenBracket => enclosed CloseBracket
      | OpenParen => enclosed CloseParen
      | CloseBrace | CloseBracket | CloseParen => Err
      | t => Got (MToken t) (tl ts)
      end
  end
(** lib.rs:2516-2518, 2557-2559: patterns until the closing token, which is left *)
with parts (fuel : nat) (close : tok) (ts : list tok) : res (list mpat) :=
  match fuel with
  | 0 => Fuel
  | S fuel => if tok_eqb (peek ts) close then Got [] ts
              else bind (macro_pattern fuel ts) (fun p r => then_ (cons p) (parts fuel close r))
  end.

Definition rule : Type := mpat * list tok.
(** items.rs:144-150, one rule of several *)
Definition p_rule (fuel : nat) (ts : list tok) : res rule :=
  bind (macro_pattern fuel ts) (fun p r => eat FatArrow r (fun r => then_ (fun t => (p, t)) (macro_template fuel r))).
(** lib.rs:2848-2904 [token_separated] for rules *)
Fixpoint p_rules (fuel : nat) (ts : list tok) : res (list rule) :=
  match fuel with
  | 0 => Fuel
  | S fuel =>
      if tok_eqb (peek ts) CloseBrace then Got [] ts
      else bind (p_rule fuel ts) (fun a r =>
             if tok_eqb (peek r) CloseBrace then Got [a] r
             else eat Comma r (fun r => then_ (cons a) (p_rules fuel r)))
  end.
(** items.rs:125-166, a definition after its name *)
Definition macro_rules (fuel : nat) (ts : list tok) : res (list rule) :=
  match peek ts with
  | OpenParen => bind (macro_pattern fuel ts) (fun p r => then_ (fun t => [(p, t)]) (macro_template fuel r))
  | OpenBrace => bind (p_rules fuel (tl ts)) (fun l r => eat CloseBrace r (fun r => Got l r))
  | _ => Err
  end.
(** spade-parser/src/expression.rs:287-315, a macro call after [!] *)
Definition macro_call (fuel : nat) (ts : list tok) : res (list tok) :=
  match peek ts with
  | OpenBrace => enclosed_token_stream fuel OpenBrace CloseBrace ts
  | OpenBracket => enclosed_token_stream fuel OpenBracket CloseBracket ts
  | OpenParen => enclosed_token_stream fuel OpenParen CloseParen ts
  | _ => Err
  end.

(** ** The built-in macros *)
Inductive which := Include | IncludeBytes | User.
(** Expressions before (spade-ast) and after (spade-hir) lowering: a kind and operands *)
Inductive aexpr := ANode (n : nat) (l : list aexpr) | AMacro (m : which) (tokens : list tok).
Inductive hexpr := HNode (n : nat) (l : list hexpr) | HBytes (l : list (N * N)).
Definition dir := list string.
Inductive outcome := Lowered (h : hexpr) | Refused | Bug | Endless.
(** Operands in order, up to the first that is not lowered *)
Fixpoint lower_all (f : aexpr -> outcome) (n : nat) (l : list aexpr) (done : list hexpr) : outcome :=
  match l with
  | [] => Lowered (HNode n done)
  | a :: l => match f a with Lowered h => lower_all f n l (done ++ [h]) | x => x end
  end.
Section Files.
(** What files hold; the text of a file as an expression and what follows it ([Parser::expression]
    and [read_to_string]; [None] where either fails); a written path, absolute or not *)
Variable files : dir -> option (list N).
Variable parse : list N -> option (aexpr * list tok).
Variable path_of : string -> bool * dir.
(** [Path::join]; [Path::parent] is [removelast] *)
Definition join (base : dir) (p : bool * dir) : dir := if fst p then snd p else base ++ snd p.
(** spade-ast-lowering/src/lib.rs:2927-2976 [handle_include], 2978-3028 [handle_include_bytes],
    2396-2430 macro calls in [visit_expression_result] *)
Fixpoint lower (fuel : nat) (working_dir : option dir) (e : aexpr) : outcome :=
  match fuel with
  | 0 => Endless
  | S fuel =>
      match e with
      | ANode n l => lower_all (lower fuel working_dir) n l []
      | AMacro User _ => Refused
      | AMacro Include [Str s] =>
          match working_dir with
          | None => Bug
          | Some base =>
              let file := join base (path_of s) in
              match file with
              | [] => Bug (* [parent] of the root, unwrapped *)
              | _ =>
                  match files file with
                  | None => Refused
                  | Some src => match parse src with None => Refused | Some (e, _) => lower fuel (Some (removelast file)) e end
                  end
              end
          end
      | AMacro IncludeBytes [Str s] =>
          match working_dir with
          | None => Bug
          | Some base => match files (join base (path_of s)) with None => Refused | Some bytes => Lowered (HBytes (map (fun b => (b, 8%N)) bytes)) end
          end
      | AMacro _ _ => Refused
      end
  end.
End Files.
