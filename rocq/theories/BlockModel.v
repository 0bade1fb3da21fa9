(** Blocks and files as sequences of statements and items, with recovery from errors:
    spade-parser/src/statements.rs, src/lib.rs, src/item_type.rs.

    An expression, a pattern, a type, an attribute, a visibility marker and an item are one token
    each here (how they are read is C37 and C61); an identifier is a token of its own that is also
    an expression and a pattern.  Left out: locations and texts of messages. *)
From Coq Require Import List Arith Bool.
Import ListNotations.

Inductive tok :=
| Let | Reg | Decl | Assert | Set_ | Label (n : nat) | TypeDecl (n : nat) | Item (n : nat)
| At (n : nat) | Vis (n : nat) | Id (n : nat) | Ex (n : nat) | Pt (n : nat) | Ty (n : nat)
| Semi | GreekQuestionMark | Colon | Assignment | Comma | Asterisk | Reset | Initial
| OpenParen | CloseParen | OpenBracket | CloseBracket | OpenBrace | CloseBrace | OtherTok (n : nat) | Eof.
(** What the lexer gives; [None]: no token starts there.  After the last there are only [Eof] *)
Definition cells := list (option tok).
Inductive error := Lexer | Unexpected (t : tok) | EmptyDecl | TwoResets | AttributesHere | VisibilityHere | RegInFunction | NoUnit
| StageOutside | MissingSemi (t : tok) | Greek | MissingSemiAfterValue | ExpectedItem (t : tok).
(** A value, or an error ([Err] of the code); in either case what is left of the text *)
Inductive pr (A : Type) := Ok (a : A) (ts : cells) | Fail (e : error) (ts : cells).
Arguments Ok {A}. Arguments Fail {A}.
Definition P (A : Type) := cells -> pr A.
Definition ret {A} (a : A) : P A := fun ts => Ok a ts.
Definition fail {A} (e : error) : P A := fun ts => Fail e ts.
Definition bind {A B} (p : P A) (k : A -> P B) : P B := fun ts => match p ts with Ok a r => k a r | Fail e r => Fail e r end.
Notation "x <- p ;; k" := (bind p (fun x => k)) (at level 80, p at level 70, right associativity).

(** lib.rs:3105-3117 [peek]: an error of the lexer is given once, and what caused it is passed *)
Definition peek : P tok := fun ts => match ts with [] => Ok Eof [] | Some t :: r => Ok t ts | None :: r => Fail Lexer r end.
(** lib.rs:3078-3090 [eat_unconditional] *)
Definition next : P tok := fun ts => match ts with [] => Ok Eof [] | Some t :: r => Ok t r | None :: r => Fail Lexer r end.
Definition tok_eqb (a b : tok) : bool :=
  match a, b with
  | Let, Let | Reg, Reg | Decl, Decl | Assert, Assert | Set_, Set_ | Semi, Semi | GreekQuestionMark, GreekQuestionMark | Colon, Colon
  | Assignment, Assignment | Comma, Comma | Asterisk, Asterisk | Reset, Reset | Initial, Initial | OpenParen, OpenParen | CloseParen, CloseParen
  | OpenBracket, OpenBracket | CloseBracket, CloseBracket | OpenBrace, OpenBrace | CloseBrace, CloseBrace | Eof, Eof => true
  | Label n, Label m | TypeDecl n, TypeDecl m | Item n, Item m | At n, At m | Vis n, Vis m | Id n, Id m | Ex n, Ex m | Pt n, Pt m | Ty n, Ty m
  | OtherTok n, OtherTok m => Nat.eqb n m
  | _, _ => false
  end.
(** lib.rs:3019-3057 [eat]: a wrong token stays; [>>] for [>] is left out, no type is read token by token here *)
Definition eat (k : tok) : P unit := t <- peek ;; if tok_eqb t k then (_ <- next ;; ret tt) else fail (Unexpected t).
(** lib.rs:3092-3103 [peek_and_eat] *)
Definition peek_and_eat (k : tok) : P bool := t <- peek ;; if tok_eqb t k then (_ <- eat k ;; ret true) else ret false.

(** One token each, see above.  A token that starts no expression (expression.rs:341-347) and no type
    (lib.rs:1267-1271) stays, one that starts no pattern is eaten (lib.rs:1489-1492) *)
Inductive expr := Name (n : nat) | Expr (n : nat).
Inductive pat := PName (n : nat) | Pat (n : nat).
Definition expression : P expr := t <- peek ;; match t with Ex n => _ <- next ;; ret (Expr n) | Id n => _ <- next ;; ret (Name n) | _ => fail (Unexpected t) end.
Definition pattern : P pat := t <- next ;; match t with Pt n => ret (Pat n) | Id n => ret (PName n) | _ => fail (Unexpected t) end.
Definition type_spec : P nat := t <- peek ;; match t with Ty n => _ <- next ;; ret n | _ => fail (Unexpected t) end.
(** [type_expression]: a type or an expression *)
Definition type_expression : P (nat + expr) :=
  t <- peek ;; match t with Ty n => _ <- next ;; ret (inl n) | Ex n => _ <- next ;; ret (inr (Expr n)) | Id n => _ <- next ;; ret (inr (Name n)) | _ => fail (Unexpected t) end.
Definition surrounded {A} (open : tok) (p : P A) (close : tok) : P A := _ <- eat open ;; a <- p ;; _ <- eat close ;; ret a.

(** spade-ast/src/lib.rs [Statement] *)
Inductive stmt :=
| SBinding (p : pat) (ty : option nat) (v : expr) (attrs : list nat)
| SRegister (p : pat) (clock : expr) (reset : option (expr * expr)) (initial : option expr) (v : expr) (ty : option nat) (attrs : list nat)
| SMarker (count : option (nat + expr)) (cond : option expr)
| SDeclaration (names : list nat)
| SLabel (n : nat)
| SAssert (e : expr)
| SSet (target v : expr)
| SType (n : nat) (attrs : list nat) (vis : option nat)
| SExpression (e : expr) (attrs : list nat).
Inductive unit_kind := Function | Entity | Pipeline.

(** lib.rs:1842-1857 [disallow_attributes], 1859-1875 [disallow_visibility] *)
Definition disallow_attributes (attrs : list nat) : P unit := match attrs with [] => ret tt | _ => fail AttributesHere end.
Definition disallow_visibility (vis : option nat) : P unit := match vis with None => ret tt | _ => fail VisibilityHere end.
(** item_type.rs:35-46 [allows_reg] *)
Definition allows_reg (c : option unit_kind) : P unit := match c with Some Function => fail RegInFunction | Some _ => ret tt | None => fail NoUnit end.
Definition optional_type : P (option nat) := c <- peek_and_eat Colon ;; if c then (t <- type_spec ;; ret (Some t)) else ret None.
(** statements.rs:20-47 *)
Definition p_binding (attrs : list nat) (vis : option nat) : P stmt :=
  _ <- next ;; _ <- disallow_visibility vis ;; p <- pattern ;; ty <- optional_type ;; _ <- eat Assignment ;; v <- expression ;; ret (SBinding p ty v attrs).
(** statements.rs:175-200 [register_reset] *)
Definition register_reset : P (option (expr * expr)) :=
  r <- peek_and_eat Reset ;;
  if r then (x <- surrounded OpenParen (c <- expression ;; _ <- eat Colon ;; v <- expression ;; ret (c, v)) CloseParen ;; ret (Some x)) else ret None.
(** statements.rs:202-211 [register_initial] *)
Definition register_initial : P (option expr) :=
  r <- peek_and_eat Initial ;; if r then (x <- surrounded OpenParen expression CloseParen ;; ret (Some x)) else ret None.
(** statements.rs:57-171 *)
Definition p_register (c : option unit_kind) (attrs : list nat) (vis : option nat) : P stmt :=
  _ <- next ;; _ <- disallow_visibility vis ;;
  t <- peek ;; cond <- (if tok_eqb t OpenBracket then (x <- surrounded OpenBracket expression CloseBracket ;; ret (Some x)) else ret None) ;;
  t <- peek ;;
  if tok_eqb t Semi || tok_eqb t Asterisk then
    (a <- peek_and_eat Asterisk ;; count <- (if a then (n <- type_expression ;; ret (Some n)) else ret None) ;; ret (SMarker count cond))
  else
    (_ <- allows_reg c ;; clock <- surrounded OpenParen expression CloseParen ;; p <- pattern ;; ty <- optional_type ;;
     reset <- register_reset ;; initial <- register_initial ;; reset2 <- register_reset ;;
     r <- match reset, reset2 with Some a, None => ret (Some a) | None, b => ret b | Some _, Some _ => fail TwoResets end ;;
     _ <- eat Assignment ;; v <- expression ;; ret (SRegister p clock r initial v ty attrs)).
(** statements.rs:226-237, the loop of declared names *)
Fixpoint p_names (ts : cells) : pr (list nat) :=
  match ts with
  | Some (Id n) :: r =>
      match r with
      | Some Comma :: r => match p_names r with Ok l r => Ok (n :: l) r | Fail e r => Fail e r end
      | None :: r => Fail Lexer r
      | _ => Ok [n] r
      end
  | None :: r => Fail Lexer r
  | _ => Ok [] ts
  end.
(** statements.rs:220-253 *)
Definition p_decl (attrs : list nat) (vis : option nat) : P stmt :=
  _ <- next ;; _ <- disallow_attributes attrs ;; _ <- disallow_visibility vis ;;
  l <- p_names ;; match l with [] => fail EmptyDecl | _ => ret (SDeclaration l) end.
(** statements.rs:263-286 *)
Definition p_label (n : nat) (attrs : list nat) (vis : option nat) : P stmt :=
  _ <- next ;; _ <- disallow_attributes attrs ;; _ <- disallow_visibility vis ;; ret (SLabel n).
(** statements.rs:296-309 *)
Definition p_assert (attrs : list nat) (vis : option nat) : P stmt :=
  _ <- next ;; _ <- disallow_attributes attrs ;; _ <- disallow_visibility vis ;; e <- expression ;; ret (SAssert e).
(** statements.rs:319-331 *)
Definition p_set (attrs : list nat) (vis : option nat) : P stmt :=
  _ <- next ;; _ <- disallow_attributes attrs ;; _ <- disallow_visibility vis ;;
  t <- expression ;; _ <- eat Assignment ;; v <- expression ;; ret (SSet t v).

(** ** Readers that also note errors and go on *)
Inductive res (A : Type) := Done (a : A) (ts : cells) (d : list error) | Failed (e : error) (ts : cells) (d : list error).
Arguments Done {A}. Arguments Failed {A}.
Definition D (A : Type) := cells -> list error -> res A.
Definition dret {A} (a : A) : D A := fun ts d => Done a ts d.
Definition dbind {A B} (p : D A) (k : A -> D B) : D B := fun ts d => match p ts d with Done a r d => k a r d | Failed e r d => Failed e r d end.
Definition lift {A} (p : P A) : D A := fun ts d => match p ts with Ok a r => Done a r d | Fail e r => Failed e r d end.
Definition note (e : error) : D unit := fun ts d => Done tt ts (d ++ [e]).
Notation "x <~ p ;; k" := (dbind p (fun x => k)) (at level 80, p at level 70, right associativity).

(** lib.rs:1539-1571 [semi_validator], [semi_continuation] *)
Definition semi (s : stmt) : D stmt :=
  t <~ lift peek ;;
  match t with
  | GreekQuestionMark => lift (fail Greek)
  | Semi => _ <~ lift next ;; dret s
  | _ => _ <~ note (MissingSemi t) ;; dret s
  end.
(** lib.rs:1575-1599, the readers by leading token *)
Definition leading (t : tok) : bool :=
  match t with Let | Reg | Decl | Label _ | Assert | Set_ | TypeDecl _ => true | _ => false end.
Definition by_keyword (c : option unit_kind) (allow_stages : bool) (t : tok) (attrs : list nat) (vis : option nat) : D (option stmt) :=
  match t with
  | Let => s <~ lift (p_binding attrs vis) ;; s <~ semi s ;; dret (Some s)
  | Reg => s <~ lift (p_register c attrs vis) ;; s <~ semi s ;;
      match s with SMarker _ _ => if allow_stages then dret (Some s) else lift (fail StageOutside) | _ => dret (Some s) end
  | Decl => s <~ lift (p_decl attrs vis) ;; s <~ semi s ;; dret (Some s)
  | Label n => s <~ lift (p_label n attrs vis) ;; dret (Some s)
  | Assert => s <~ lift (p_assert attrs vis) ;; s <~ semi s ;; dret (Some s)
  | Set_ => s <~ lift (p_set attrs vis) ;; s <~ semi s ;; dret (Some s)
  | TypeDecl n => _ <~ lift next ;; dret (Some (SType n attrs vis))
  | _ => dret None
  end.
(** lib.rs:2478-2506 [attributes], 1913-1945 [visibility] *)
Fixpoint attributes (ts : cells) : pr (list nat) :=
  match ts with
  | Some (At n) :: r => match attributes r with Ok l r => Ok (n :: l) r | Fail e r => Fail e r end
  | None :: r => Fail Lexer r
  | _ => Ok [] ts
  end.
Definition visibility : P (option nat) := t <- peek ;; match t with Vis n => _ <- next ;; ret (Some n) | _ => ret None end.
(** lib.rs:2990-3005, tokens passed over *)
Fixpoint skip (stop : tok -> bool) (ts : cells) : cells :=
  match ts with [] => [] | None :: r => r | Some t :: r => if stop t then ts else skip stop r end.
(** lib.rs:2979-3013 [with_recovery]: [None] is [Recovered] *)
Definition with_recovery {A} (stop : tok -> bool) (p : D A) : D (option A) :=
  fun ts d => match p ts d with Done a r d => Done (Some a) r d | Failed e r d => Done None (skip stop r) (d ++ [e]) end.
(** lib.rs:2924-2977 [keyword_peeking_parser_or_else_seq]; [None]: no end within the fuel.
    [one] reads what its leading token says, [other] everything else, and gives an element or what
    the loop ends with *)
Section Seq.
Variables T F : Type.
Variable stop : tok -> bool.
Variable one : tok -> list nat -> option nat -> D (option T).
Variable other : list nat -> D (T + F).
Definition head : D (list nat * option T) :=
  attrs <~ lift attributes ;; vis <~ lift visibility ;; t <~ lift peek ;; s <~ one t attrs vis ;; dret (attrs, s).
Fixpoint seq (fuel : nat) : cells -> list error -> option (res (list T * F)) :=
  fun ts d =>
  match fuel with
  | 0 => None
  | S fuel =>
      let again s ts d := match seq fuel ts d with Some (Done (l, f) r d) => Some (Done (s :: l, f) r d) | x => x end in
      match with_recovery stop head ts d with
      | Failed e r d => Some (Failed e r d)
      | Done None r d => seq fuel r d
      | Done (Some (attrs, Some s)) r d => again s r d
      | Done (Some (attrs, None)) r d =>
          match other attrs r d with
          | Failed e r d => Some (Failed e r d)
          | Done (inl s) r d => again s r d
          | Done (inr f) r d => Some (Done ([], f) r d)
          end
      end
  end.
End Seq.
(** lib.rs:1604-1621, neither a keyword nor an attribute *)
Definition other (attrs : list nat) : D (stmt + option expr) :=
  t <~ lift peek ;;
  if tok_eqb t CloseBrace then (_ <~ lift (disallow_attributes attrs) ;; dret (inr None))
  else
    e <~ lift expression ;; t <~ lift peek ;;
    match t with
    | GreekQuestionMark => lift (fail Greek)
    | Semi => _ <~ lift next ;; dret (inl (SExpression e attrs))
    | _ => _ <~ lift (disallow_attributes attrs) ;; dret (inr (Some e))
    end.
Section Block.
Variable outer : tok -> bool. (* the tokens readers around this one go on at; [Eof] is among them, lib.rs:162 *)
Variable c : option unit_kind.
Variable allow_stages : bool.
Definition stop (t : tok) : bool := leading t || tok_eqb t CloseBrace || tok_eqb t Eof || outer t.
(** lib.rs:1535-1625 [block_statements] *)
Definition block_statements (fuel : nat) := seq stmt (option expr) stop (by_keyword c allow_stages) other fuel.
(** lib.rs:1497-1533 [statements]; [l] and [final] are what was read before *)
Fixpoint statements_from (fuel : nat) (l : list stmt) (final : option expr) (ts : cells) (d : list error) : option (res (list stmt * option expr)) :=
  match fuel with
  | 0 => None
  | S fuel =>
      match peek ts with
      | Fail e r => Some (Failed e r d)
      | Ok CloseBrace ts => Some (Done (l, final) ts d)
      | Ok _ ts =>
          match block_statements (S (length ts)) ts d with
          | None => None
          | Some (Failed e r d) => Some (Failed e r d)
          | Some (Done (l', final') r d) =>
              let old := match final with Some e => [SExpression e []] | None => [] end in
              let d := match final, l', final' with Some _, [], None => d | Some _, _, _ => d ++ [MissingSemiAfterValue] | None, _, _ => d end in
              statements_from fuel (l ++ old ++ l') final' r d
          end
      end
  end.
Definition statements (ts : cells) (d : list error) := statements_from (S (length ts)) [] None ts d.
(** lib.rs:961-975 [block], after its opening brace *)
Definition block (ts : cells) (d : list error) : option (res (list stmt * option expr)) :=
  match statements ts d with Some (Done a r d) => Some (dbind (lift (eat CloseBrace)) (fun _ => dret a) r d) | x => x end.
End Block.

(** ** Files *)
(** lib.rs:2709-2724, items by leading token: the item, its attributes and visibility *)
Definition item : Type := nat * list nat * option nat.
Definition an_item (t : tok) (attrs : list nat) (vis : option nat) : D (option item) :=
  match t with Item n => _ <~ lift next ;; dret (Some (n, attrs, vis)) | _ => dret None end.
Definition item_stop (t : tok) : bool := match t with Item _ => true | Eof => true | _ => false end.
(** lib.rs:2696-2730 [module_body] and 2732-2770 [top_level_module_body], which gives no error but
    notes it; the loop ends only where a token has been seen, so that no error of the lexer is left *)
Definition file (ts : cells) : option (res (list item)) :=
  match seq item unit item_stop an_item (fun _ => dret (inr tt)) (S (length ts)) ts [] with
  | None => None
  | Some (Failed e r d) => Some (Done [] r (d ++ [e]))
  | Some (Done (l, _) r d) =>
      Some (match peek r with
            | Fail e r => Failed e r d
            | Ok Eof r => Done l r d
            | Ok t r => Done l r (d ++ [ExpectedItem t])
            end)
  end.
