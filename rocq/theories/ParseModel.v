(** Parsing of expressions (C37).

    spade-parser/src/expression.rs and the literal, tuple, array, call and [if]
    parsers of spade-parser/src/lib.rs, over the token kinds of
    spade-ast/src/token.rs.  Source locations are left out.  Not modelled:
    statements inside blocks (a block here is one expression in braces),
    [match], [if let], lambdas, [gen if], [unsafe], entity instances, stage
    references, labels, strings, macros, multi-segment paths and type arguments;
    identifiers are numbers and the type after [as] is a single opaque token. *)
From Coq Require Import List ZArith Bool Arith.
Import ListNotations.
Local Open Scope list_scope.

(** Operator tokens, spade-ast/src/token.rs:146-204. *)
Inductive opkind :=
| KPlus | KMinus | KAsterisk | KSlash | KPercentage | KEquals | KNotEquals
| KLt | KGt | KLe | KGe | KArithmeticRightShift | KRightShift | KLeftShift
| KPlusDot | KMinusDot | KAsteriskDot | KRightShiftDot | KLeftShiftDot
| KDoublePipe | KLogicalAnd | KLogicalXor | KAmpersand | KPipe | KNot
| KBitwiseXor | KTilde.

(** spade-ast/src/token.rs:7-12 [LiteralKind]. *)
Inductive lkind :=
| Unsized
| Signed (size : option N)
| Unsigned (size : option N).

(** Tokens.  [TOther]: any token no modelled parser accepts.  The end of the
    list is [Eof]. *)
Inductive tok :=
| TkInt (val : N) (k : lkind)
| TkBool (b : bool)
| TkId (x : nat)
| TkOp (k : opkind)
| TkTick
| TkLP | TkRP | TkLB | TkRB | TkLBrace | TkRBrace
| TkComma | TkDot | TkDotDot | TkSemi | TkColon | TkHash | TkDollar
| TkAs | TkTy (t : nat) | TkIf | TkElse
| TkOther (n : nat).

(** spade-ast [BinaryOperator], [UnaryOperator]. *)
Inductive binop :=
| BAdd | BSub | BMul | BDiv | BMod | BEq | BNeq | BLt | BGt | BLe | BGe
| BLogicalAnd | BLogicalOr | BLogicalXor | BLeftShift | BRightShift | BArithmeticRightShift
| BBitwiseAnd | BBitwiseOr | BBitwiseXor
| BWrappingAdd | BWrappingSub | BWrappingMul | BWrappingLeftShift | BWrappingRightShift.
Inductive unop := USub_ | UWrappingSub | UNot_ | UBitwiseNot | UDereference | UReference.

(** spade-ast [Expression]: the modelled cases.  [EInt] is [IntLiteral]. *)
Inductive expr :=
| EInt (z : Z) (k : lkind)
| EBool (b : bool)
| EId (x : nat)
| ECall (f : nat) (a : args)
| ETuple (l : exprs)
| EParen (e : expr)
| EArray (l : exprs)
| EShorthand (e n : expr)
| EIndex (e i : expr)
| ERange (e : expr) (s t : oexpr)
| ETupleIndex (e : expr) (i : Z) (deprecated : bool)
| EField (e : expr) (x : nat)
| EMethod (e : expr) (x : nat) (a : args)
| ECast (e : expr) (t : nat)
| EUn (u : unop) (e : expr)
| EBin (l : expr) (o : binop) (r : expr)
| EBlock (e : expr)
| EIf (c t f : expr)
with exprs := ENil | ECons (e : expr) (l : exprs)
with oexpr := ENone | ESome (e : expr)
(** [ArgumentList]: positional, or named with [NamedArgument::Full] / [Short]. *)
with args := APositional (l : exprs) | ANamed (l : named)
with named := NNil | NFull (x : nat) (e : expr) (l : named) | NShort (x : nat) (l : named).

(** spade-parser/src/expression.rs:17-33 [OpBindingPower], in order. *)
Definition None_ := 0. Definition LogicalOr := 1. Definition LogicalAnd := 2.
Definition LogicalXor := 3. Definition Equality := 4. Definition RelationalCmp := 5.
Definition BitwiseOr := 6. Definition BitwiseXor := 7. Definition BitwiseAnd := 8.
Definition Shift := 9. Definition AddLike := 10. Definition MulLike := 11.
Definition PrefixUnary := 12.

(** spade-parser/src/expression.rs:35-63. *)
Definition binop_binding_power (o : binop) : nat :=
  match o with
  | BAdd => AddLike
  | BSub => AddLike
  | BMul => MulLike
  | BDiv => MulLike
  | BMod => MulLike
  | BEq => Equality
  | BNeq => Equality
  | BLt => RelationalCmp
  | BGt => RelationalCmp
  | BLe => RelationalCmp
  | BGe => RelationalCmp
  | BLogicalAnd => LogicalAnd
  | BLogicalOr => LogicalOr
  | BLogicalXor => LogicalXor
  | BLeftShift => Shift
  | BRightShift => Shift
  | BArithmeticRightShift => Shift
  | BBitwiseAnd => BitwiseAnd
  | BBitwiseOr => BitwiseOr
  | BBitwiseXor => BitwiseXor
  | BWrappingAdd => AddLike
  | BWrappingSub => AddLike
  | BWrappingMul => MulLike
  | BWrappingLeftShift => Shift
  | BWrappingRightShift => Shift
  end.

(** spade-parser/src/expression.rs:65-74. *)
Definition unop_binding_power (u : unop) : nat :=
  match u with
  | USub_ | UNot_ | UBitwiseNot | UWrappingSub | UDereference | UReference => PrefixUnary
  end.

(** spade-parser/src/expression.rs:77-110 [binop_from_kind]. *)
Definition binop_from_kind (k : opkind) : option binop :=
  match k with
  | KPlus => Some BAdd
  | KMinus => Some BSub
  | KAsterisk => Some BMul
  | KSlash => Some BDiv
  | KPercentage => Some BMod
  | KEquals => Some BEq
  | KNotEquals => Some BNeq
  | KLt => Some BLt
  | KGt => Some BGt
  | KLe => Some BLe
  | KGe => Some BGe
  | KRightShift => Some BRightShift
  | KArithmeticRightShift => Some BArithmeticRightShift
  | KLeftShift => Some BLeftShift
  | KPlusDot => Some BWrappingAdd
  | KMinusDot => Some BWrappingSub
  | KAsteriskDot => Some BWrappingMul
  | KRightShiftDot => Some BWrappingRightShift
  | KLeftShiftDot => Some BWrappingLeftShift
  | KDoublePipe => Some BLogicalOr
  | KLogicalAnd => Some BLogicalAnd
  | KLogicalXor => Some BLogicalXor
  | KAmpersand => Some BBitwiseAnd
  | KPipe => Some BBitwiseOr
  | KBitwiseXor => Some BBitwiseXor
  | _ => None
  end.

(** spade-parser/src/expression.rs:112-122 [unop_from_kind]. *)
Definition unop_from_kind (k : opkind) : option unop :=
  match k with
  | KMinus => Some USub_
  | KMinusDot => Some UWrappingSub
  | KNot => Some UNot_
  | KTilde => Some UBitwiseNot
  | KAmpersand => Some UReference
  | KAsterisk => Some UDereference
  | _ => None
  end.

(** The next token as an operator. *)
Definition peek_binop (ts : list tok) : option binop :=
  match ts with TkOp k :: _ => binop_from_kind k | _ => None end.
Definition peek_unop (ts : list tok) : option unop :=
  match ts with TkOp k :: _ => unop_from_kind k | _ => None end.

(** Result of a parser: a value and the remaining tokens, a diagnostic, or
    [Fuel]: the bound on the number of nested calls given to the model was
    reached ([parse_enough] shows it never is). *)
Inductive res (A : Type) :=
| Ok (a : A) (rest : list tok)
| Err
| Fuel.
Arguments Ok {A}. Arguments Err {A}. Arguments Fuel {A}.

Definition bind {A B} (r : res A) (f : A -> list tok -> res B) : res B :=
  match r with Ok a rest => f a rest | Err => Err | Fuel => Fuel end.

(** [Parser::eat]: fails on any other token.  Token kinds without data are
    compared by [kind_eqb]. *)
Definition kind_eqb (a b : tok) : bool :=
  match a, b with
  | TkTick, TkTick | TkLP, TkLP | TkRP, TkRP | TkLB, TkLB | TkRB, TkRB
  | TkLBrace, TkLBrace | TkRBrace, TkRBrace | TkComma, TkComma | TkDot, TkDot
  | TkDotDot, TkDotDot | TkSemi, TkSemi | TkColon, TkColon | TkHash, TkHash
  | TkDollar, TkDollar | TkAs, TkAs | TkIf, TkIf | TkElse, TkElse => true
  | _, _ => false
  end.
Definition peek_kind (k : tok) (ts : list tok) : bool :=
  match ts with t :: _ => kind_eqb k t | [] => false end.
Definition eat (k : tok) (ts : list tok) : res unit :=
  match ts with
  | t :: rest => if kind_eqb k t then Ok tt rest else Err
  | [] => Err
  end.

(** [Parser::identifier], spade-parser/src/lib.rs:198-206. *)
Definition identifier (ts : list tok) : res nat :=
  match ts with TkId x :: rest => Ok x rest | _ => Err end.

(** [Parser::int_literal], spade-parser/src/lib.rs:870-920.  The sign is ignored
    on an unsigned literal. *)
Definition literal (neg : bool) (val : N) (k : lkind) : Z * lkind :=
  match k with
  | Unsigned _ => (Z.of_N val, k)
  | _ => ((if neg then - Z.of_N val else Z.of_N val)%Z, k)
  end.
Definition int_literal (ts : list tok) : res (option (Z * lkind)) :=
  match ts with
  | TkOp KPlus :: TkInt v k :: rest => Ok (Some (literal false v k)) rest
  | TkOp KMinus :: TkInt v k :: rest => Ok (Some (literal true v k)) rest
  | TkOp KPlus :: _ | TkOp KMinus :: _ => Err
  | TkInt v k :: rest => Ok (Some (literal false v k)) rest
  | _ => Ok None ts
  end.

(** Tuple indices, spade-parser/src/expression.rs:417-434, 447-464. *)
Definition tuple_index (z : Z) : option Z :=
  if ((0 <=? z) && (z <? 2 ^ 128))%Z then Some z else None.

(** spade-parser/src/expression.rs:172-216 [inline_negative_literal]. *)
Definition inline_negative_literal (u : unop) (rhs : expr) : option expr :=
  match u, rhs with
  | USub_, EInt z Unsized => Some (EInt (- z) Unsized)
  | USub_, EInt z (Signed s) => Some (EInt (- z) (Signed s))
  | USub_, EInt _ (Unsigned _) => None
  | _, _ => Some (EUn u rhs)
  end.

(** spade-parser/src/lib.rs:347: [path_with_turbofish] takes a following `!` as
    the mark of a macro call. *)
Definition is_macro (ts : list tok) : bool :=
  match ts with TkOp KNot :: _ => true | _ => false end.

(** The parsers.  [n] bounds the depth of nested calls. *)
(** spade-parser/src/expression.rs:137-168 [custom_infix_operator], also
    [expression] and [non_comptime_expression]. *)
Fixpoint p_expr (n : nat) (ts : list tok) : res expr :=
  match n with
  | O => Fuel
  | S n =>
      bind (p_bp n None_ ts) (fun lhs ts =>
        if peek_kind TkTick ts then
          bind (eat TkTick ts) (fun _ ts =>
          bind (identifier ts) (fun f ts =>
          bind (eat TkTick ts) (fun _ ts =>
          bind (p_expr n ts) (fun rhs ts =>
            Ok (ECall f (APositional (ECons lhs (ECons rhs ENil)))) ts))))
        else Ok lhs ts)
  end
(** spade-parser/src/expression.rs:220-252 [expr_bp]. *)
with p_bp (n : nat) (min_power : nat) (ts : list tok) : res expr :=
  match n with
  | O => Fuel
  | S n =>
      match peek_unop ts with
      | Some op =>
          bind (p_bp n (unop_binding_power op) (tl ts)) (fun rhs ts =>
            match inline_negative_literal op rhs with
            | Some lhs => p_loop n min_power lhs ts
            | None => Err
            end)
      | None => bind (p_base n ts) (fun lhs ts => p_loop n min_power lhs ts)
      end
  end
(** The [while] loop of [expr_bp], lines 233-249. *)
with p_loop (n : nat) (min_power : nat) (lhs : expr) (ts : list tok) : res expr :=
  match n with
  | O => Fuel
  | S n =>
      match peek_binop ts with
      | Some op =>
          let op_power := binop_binding_power op in
          if op_power <=? min_power then Ok lhs ts
          else bind (p_bp n op_power (tl ts)) (fun rhs ts => p_loop n min_power (EBin lhs op rhs) ts)
      | None => Ok lhs ts
      end
  end
(** spade-parser/src/expression.rs:256-352 [base_expression]: the modelled
    alternatives in order, then the suffixes. *)
with p_base (n : nat) (ts : list tok) : res expr :=
  match n with
  | O => Fuel
  | S n =>
      bind
        (match ts with
         (* tuple_literal, spade-parser/src/lib.rs:560-608 *)
         | TkLP :: ts =>
             if peek_kind TkRP ts then Ok (ETuple ENil) (tl ts)
             else if peek_kind TkComma ts then
               bind (eat TkRP (tl ts)) (fun _ ts => Ok (ETuple ENil) ts)
             else
               bind (p_expr n ts) (fun first ts =>
                 match ts with
                 | TkRP :: ts => Ok (EParen first) ts
                 | TkComma :: ts =>
                     bind (p_list n TkRP ts) (fun rest ts =>
                     bind (eat TkRP ts) (fun _ ts => Ok (ETuple (ECons first rest)) ts))
                 | _ => Err
                 end)
         (* array_literal, spade-parser/src/lib.rs:398-435 *)
         | TkLB :: ts =>
             if peek_kind TkRB ts then Ok (EArray ENil) (tl ts)
             else
               bind (p_expr n ts) (fun first ts =>
                 if peek_kind TkSemi ts then
                   bind (p_expr n (tl ts)) (fun amount ts =>
                   bind (eat TkRB ts) (fun _ ts => Ok (EShorthand first amount) ts))
                 else
                   bind (p_list n TkRB (if peek_kind TkComma ts then tl ts else ts)) (fun rest ts =>
                   bind (eat TkRB ts) (fun _ ts => Ok (EArray (ECons first rest)) ts)))
         | TkBool b :: ts => Ok (EBool b) ts
         | TkInt _ _ :: _ | TkOp KPlus :: _ | TkOp KMinus :: _ =>
             bind (int_literal ts) (fun l ts =>
               match l with Some (z, k) => Ok (EInt z k) ts | None => Err end)
         | TkLBrace :: ts =>
             bind (p_expr n ts) (fun e ts => bind (eat TkRBrace ts) (fun _ ts => Ok (EBlock e) ts))
         | TkIf :: _ => p_if n ts
         (* path, then argument_list; `!` would make it a macro call *)
         | TkId x :: ts =>
             if is_macro ts then Err
             else
               bind (p_args n ts) (fun a ts =>
                 match a with Some a => Ok (ECall x a) ts | None => Ok (EId x) ts end)
         | _ => Err
         end)
        (fun e ts => p_suffix n e ts)
  end
(** spade-parser/src/lib.rs:677-772 [if_expression], without [let]. *)
with p_if (n : nat) (ts : list tok) : res expr :=
  match n with
  | O => Fuel
  | S n =>
      bind (eat TkIf ts) (fun _ ts =>
      bind (p_expr n ts) (fun c ts =>
      bind (eat TkLBrace ts) (fun _ ts =>
      bind (p_expr n ts) (fun t ts =>
      bind (eat TkRBrace ts) (fun _ ts =>
      bind (eat TkElse ts) (fun _ ts =>
        if peek_kind TkLBrace ts then
          bind (p_expr n (tl ts)) (fun f ts =>
          bind (eat TkRBrace ts) (fun _ ts => Ok (EIf c (EBlock t) (EBlock f)) ts))
        else if peek_kind TkIf ts then
          bind (p_if n ts) (fun f ts => Ok (EIf c (EBlock t) f) ts)
        else Err))))))
  end
(** spade-parser/src/lib.rs:1112-1152 [argument_list].  A `$` not followed by
    `(` is eaten all the same. *)
with p_args (n : nat) (ts : list tok) : res (option args) :=
  match n with
  | O => Fuel
  | S n =>
      let is_named := peek_kind TkDollar ts in
      let ts := if is_named then tl ts else ts in
      if peek_kind TkLP ts then
        if is_named then
          bind (p_named n (tl ts)) (fun l ts => bind (eat TkRP ts) (fun _ ts => Ok (Some (ANamed l)) ts))
        else
          bind (p_list n TkRP (tl ts)) (fun l ts => bind (eat TkRP ts) (fun _ ts => Ok (Some (APositional l)) ts))
      else Ok None ts
  end
(** spade-parser/src/lib.rs:2848-2904 [token_separated], with [expression] for
    the elements and commas between them. *)
with p_list (n : nat) (close : tok) (ts : list tok) : res exprs :=
  match n with
  | O => Fuel
  | S n =>
      if peek_kind close ts then Ok ENil ts
      else
        bind (p_expr n ts) (fun e ts =>
          if peek_kind close ts then Ok (ECons e ENil) ts
          else if peek_kind TkComma ts then bind (p_list n close (tl ts)) (fun l ts => Ok (ECons e l) ts)
          else Err)
  end
(** The same with [named_argument], spade-parser/src/lib.rs:1154-1167. *)
with p_named (n : nat) (ts : list tok) : res named :=
  match n with
  | O => Fuel
  | S n =>
      if peek_kind TkRP ts then Ok NNil ts
      else
        bind (identifier ts) (fun x ts =>
        bind (if peek_kind TkColon ts then bind (p_expr n (tl ts)) (fun e ts => Ok (ESome e) ts)
              else Ok ENone ts) (fun v ts =>
        bind (if peek_kind TkRP ts then Ok NNil ts
              else if peek_kind TkComma ts then p_named n (tl ts)
              else Err) (fun l ts =>
          Ok (match v with ESome e => NFull x e l | ENone => NShort x l end) ts)))
  end
(** spade-parser/src/expression.rs:415-587 [expression_suffix].  A dot with no
    field name yields an incomplete expression and a diagnostic: an error
    here. *)
with p_suffix (n : nat) (e : expr) (ts : list tok) : res expr :=
  match n with
  | O => Fuel
  | S n =>
      match ts with
      | TkHash :: ts =>
          bind (int_literal ts) (fun l ts =>
            match l with
            | Some (z, _) =>
                match tuple_index z with Some i => p_suffix n (ETupleIndex e i true) ts | None => Err end
            | None => Err
            end)
      | TkDot :: ts =>
          bind (int_literal ts) (fun l ts =>
            match l with
            | Some (z, _) =>
                match tuple_index z with Some i => p_suffix n (ETupleIndex e i false) ts | None => Err end
            | None =>
                bind (identifier ts) (fun x ts =>
                bind (p_args n ts) (fun a ts =>
                  p_suffix n (match a with Some a => EMethod e x a | None => EField e x end) ts))
            end)
      | TkLB :: ts =>
          bind
            (if peek_kind TkDotDot ts then
               if peek_kind TkRB (tl ts) then Ok (ERange e ENone ENone) (tl ts)
               else bind (p_expr n (tl ts)) (fun t ts => Ok (ERange e ENone (ESome t)) ts)
             else
               bind (p_expr n ts) (fun s ts =>
                 if peek_kind TkDotDot ts then
                   if peek_kind TkRB (tl ts) then Ok (ERange e (ESome s) ENone) (tl ts)
                   else bind (p_expr n (tl ts)) (fun t ts => Ok (ERange e (ESome s) (ESome t)) ts)
                 else Ok (EIndex e s) ts))
            (fun e' ts => bind (eat TkRB ts) (fun _ ts => p_suffix n e' ts))
      | TkAs :: ts => match ts with TkTy t :: ts => Ok (ECast e t) ts | _ => Err end
      | _ => Ok e ts
      end
  end.

(** A complete expression: the tokens must all be used. *)
Definition parse (ts : list tok) : option expr :=
  match p_expr (10 * length ts + 10) ts with
  | Ok e [] => Some e
  | _ => None
  end.
