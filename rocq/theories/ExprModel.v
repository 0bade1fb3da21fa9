(** Lowering of expressions, statements and units to MIR.
    Source: spade-hir-lowering/src/lib.rs.

    The HIR is taken after monomorphisation and the HIR passes: methods, lambdas and
    [gen if] are gone, type-level integers are literals, calls name one unit and have
    their arguments in parameter order (C36).  The type on an expression is the one
    [concrete_type_of] answers for its id.  Left out: pipelines (C17-C20), memories
    (C12), ports, inverted wires and [set] (C13, C23, C40), tristate values, copy views,
    [undef], [div_pow2] (C07), initial values (C35), external units, attributes and
    source maps.  [None] is a diagnostic or a panic. *)
From Coq Require Import List ZArith Bool Arith String.
From Verif Require Import Bits Verilog CodegenModel PatModel LowerModel LowerSpec.
Import ListNotations.
Local Open Scope list_scope.

(** spade-hir/src/expression.rs [BinaryOperator], [UnaryOperator] *)
Inductive binop := BAdd | BSub | BMul | BShl | BShr | BSar | BDiv | BMod.
Inductive unop := UMinus | UNot | UBitNot.
(** lib.rs:2290-2328: the functions handled specially *)
Inductive intrinsic :=
| IEq | INe | IBitNot | IBitAnd | IBitOr | IBitXor | ILt | ILe | IGt | IGe
| ITrunc | ISext | IZext | IConcat | ITransmute | IReduceAnd | IReduceOr | IReduceXor | ICombDiv | ICombMod.
Inductive callee := CIntrinsic (i : intrinsic) | CVariant (v : nat) | CStructInst | CUnit (u : nat).

(** spade-hir/src/expression.rs [ExprKind], spade-hir/src/lib.rs [Statement].
    The names of the members of a struct, which [cty] leaves out, are with the field
    access; the bounds of a range have been resolved. *)
Inductive expr := Ex (id : nat) (t : cty) (k : ekind)
with ekind :=
| XName (x : nat)
| XInt (z : Z)
| XBool (b : bool)
| XBin (op : binop) (a b : expr)
| XUn (op : unop) (a : expr)
| XTuple (l : list expr)
| XTupleIndex (a : expr) (i : nat)
| XField (a : expr) (members : list string) (f : string)
| XCast (a : expr)
| XArray (l : list expr)
| XRepeat (a : expr) (n : nat)
| XIndex (a i : expr)
| XRange (a : expr) (s e : option nat)
| XBlock (ss : list stm) (r : option expr)
| XIf (c a b : expr)
| XMatch (a : expr) (arms : list (lpat * option expr * expr))
| XCall (c : callee) (args : list expr)
with stm :=
| SLet (p : lpat) (e : expr)
| SExpr (e : expr)
| SRegister (p : lpat) (clock : expr) (reset : option (expr * expr)) (value : expr)
| SAssert (e : expr)
| SDecl.
Definition ety (e : expr) : cty := let '(Ex _ t _) := e in t.
Definition eid (e : expr) : nat := let '(Ex i _ _) := e in i.

(** spade-mir/src/lib.rs [Statement]: the bindings and constants of [LowerModel], the
    operators [Nop], [BlackBoxAlias] and [Instance], registers and assertions *)
Inductive xstmt :=
| XS (s : stmt)
| XNop (name : mname) (t : ty)
| XBlackBox (name : mname) (arg : mname) (t : ty)
| XInstance (name : mname) (unit : nat) (args : list mname) (t : ty)
| XReg (name : mname) (t : ty) (clock : mname) (reset : option (mname * mname)) (value : mname)
| XAssert (name : mname).

(** lib.rs:1106-1262 [alias], [variable] *)
Fixpoint variable (e : expr) : mname :=
  let '(Ex id _ k) := e in
  match k with
  | XName x => NName x
  | XBlock _ (Some r) => variable r
  | _ => NExpr id
  end.

(** The id tracker and failure. *)
Definition M (A : Type) : Type := nat -> option (A * nat).
Definition ret {A} (a : A) : M A := fun n => Some (a, n).
Definition fail {A} : M A := fun _ => None.
Definition bind {A B} (m : M A) (f : A -> M B) : M B := fun n => match m n with Some (a, n') => f a n' | None => None end.
Notation "'do' x <- m ; k" := (bind m (fun x => k)) (at level 200, x pattern, m at level 100, k at level 200).
Definition guard (b : bool) : M unit := if b then ret tt else fail.
(** A list in order, the statements appended. *)
Definition each {A} (f : A -> M (list xstmt)) : list A -> M (list xstmt) :=
  fix go l := match l with [] => ret [] | a :: r => do s <- f a; do q <- go r; ret (s ++ q) end.
Definition lift {A} (g : gen A) : M A := fun n => Some (g n).

(** lib.rs:1418-1443 [dual_binop_builder]: by the type of the left operand *)
Definition dual (signed unsigned : operator) (t : ty) : option operator :=
  match t with TInt _ => Some signed | TUInt _ => Some unsigned | _ => None end.
(** lib.rs:1454-1519: the operator; division and modulo want a literal power of two of
    at most 128 bits *)
Definition pow2_literal (e : expr) : bool :=
  let '(Ex _ _ k) := e in
  match k with XInt z => (0 <? z)%Z && (z <? 2 ^ 128)%Z && (Z.log2 z =? Z.log2_up z)%Z | _ => false end.
Definition bin_operator (op : binop) (a b : expr) : option operator :=
  let t := to_mir_type (ety a) in
  match op with
  | BAdd => dual Add UnsignedAdd t
  | BSub => dual Sub UnsignedSub t
  | BMul => dual Mul UnsignedMul t
  | BShl => Some LeftShift
  | BShr => Some RightShift
  | BSar => Some ArithmeticRightShift
  | BDiv => if pow2_literal b then dual Div UnsignedDiv t else None
  | BMod => if pow2_literal b then dual Mod UnsignedMod t else None
  end.
(** lib.rs:1543-1551 *)
Definition un_operator (op : unop) : operator := match op with UMinus => USub | UNot => Not | UBitNot => BitwiseNot end.
(** lib.rs:1607-1632: the position of the only member of that name *)
Definition field_index (members : list string) (f : string) : option nat :=
  match filter (fun im => String.eqb (snd im) f) (combine (seq 0 (List.length members)) members) with
  | [(i, _)] => Some i
  | _ => None
  end.
(** lib.rs:2685-3523: the operator of a special function, after its check of sizes;
    [transmute] is done apart *)
Definition intrinsic_operator (i : intrinsic) (t : ty) (args : list ty) : option operator :=
  match i, args with
  | IEq, [_; _] => Some Eq
  | INe, [_; _] => Some NotEq
  | IBitNot, [_] => Some BitwiseNot
  | IBitAnd, [_; _] => Some BitwiseAnd
  | IBitOr, [_; _] => Some BitwiseOr
  | IBitXor, [_; _] => Some BitwiseXor
  | ILt, [a; _] => dual Lt UnsignedLt a
  | ILe, [a; _] => dual Le UnsignedLe a
  | IGt, [a; _] => dual Gt UnsignedGt a
  | IGe, [a; _] => dual Ge UnsignedGe a
  | ITrunc, [a] => if size a <? size t then None else Some Truncate
  | ISext, [a] => if size t <? size a then None else Some SignExtend
  | IZext, [a] => if size t <? size a then None else Some ZeroExtend
  | IConcat, [a; b] => if size t =? size a + size b then Some Concat else None
  | IReduceAnd, [_] => Some ReduceAnd
  | IReduceOr, [_] => Some ReduceOr
  | IReduceXor, [_] => Some ReduceXor
  | ICombDiv, [_; _] => dual Div UnsignedDiv t
  | ICombMod, [_; _] => dual Mod UnsignedMod t
  | _, _ => None
  end.
(** lib.rs:2838-2915 [handle_transmute]; there are no inverted wires here *)
Definition call_stmt (id : nat) (t : ty) (c : callee) (args : list mname) (tys : list ty) : option xstmt :=
  match c with
  | CIntrinsic ITransmute =>
      match args, tys with
      | [a], [ta] => if size t =? size ta then Some (XBlackBox (NExpr id) a t) else None
      | _, _ => None
      end
  | CIntrinsic i => option_map (fun op => XS (SBind (NExpr id) (Op op) args t)) (intrinsic_operator i t tys)
  | CVariant v => Some (XS (SBind (NExpr id) (Op (ConstructEnum v)) args t))
  | CStructInst => Some (XS (SBind (NExpr id) (Op ConstructTuple) args t))
  | CUnit u => Some (XInstance (NExpr id) u args t)
  end.

(** lib.rs:900-936 [check_irrefutable]; None is a panic *)
Definition irrefutable (p : lpat) : bool := match binding_accepted (lty p) (erase p) with Some true => true | _ => false end.
(** lib.rs:1810-1868: the check for missing branches *)
Definition exhaustive (t : cty) (arms : list (lpat * option expr * expr)) : bool :=
  match match_witnesses t (map (fun a => (erase (fst (fst a)), match snd (fst a) with Some _ => true | None => false end)) arms) with
  | Some [] => true
  | _ => false
  end.
Definition lower_opt {A} (f : A -> M (list xstmt)) (o : option A) : M (list xstmt) := match o with Some a => f a | None => ret [] end.
(** lib.rs:1893-1927: the branches; their statements and the operands of the Match *)
Definition lower_arms (f : expr -> M (list xstmt)) (operand : mname) : list (lpat * option expr * expr) -> M (list xstmt * list mname) :=
  fix go arms :=
    match arms with
    | [] => ret ([], [])
    | (p, g, e) :: r =>
        do s1 <- lift (lower p operand (to_mir_type (lty p)));
        do s2 <- lower_opt f g;
        do (s3, c) <- (fun n => Some (condition p operand (option_map variable g) n));
        do s4 <- f e;
        do (s5, ops) <- go r;
        ret (map XS s1 ++ s2 ++ map XS s3 ++ s4 ++ s5, c :: variable e :: ops)
    end.

(** lib.rs:1264-2194 [lower] of an expression, 2196-2549 [handle_call],
    938-1099 [lower] of a statement *)
Fixpoint lower_expr (e : expr) : M (list xstmt) :=
  let '(Ex id t k) := e in
  let mt := to_mir_type t in
  let self := NExpr id in
  match k with
  | XName _ => ret []
  | XInt z => ret [XS (SConst self mt (KInt z))]
  | XBool b => ret [XS (SConst self mt (KBool b))]
  | XBin op a b =>
      match bin_operator op a b with
      | Some o => do s1 <- lower_expr a; do s2 <- lower_expr b;
                  ret (s1 ++ s2 ++ [XS (SBind self (Op o) [variable a; variable b] mt)])
      | None => fail
      end
  | XUn op a => do s <- lower_expr a; ret (s ++ [XS (SBind self (Op (un_operator op)) [variable a] mt)])
  | XTuple l => do s <- each lower_expr l; ret (s ++ [XS (SBind self (Op ConstructTuple) (map variable l) mt)])
  | XTupleIndex a i => do s <- lower_expr a; ret (s ++ [XS (SBind self (Op (IndexTuple i)) [variable a] mt)])
  | XField a members f =>
      do s <- lower_expr a;
      match field_index members f with
      | Some i => ret (s ++ [XS (SBind self (Op (IndexTuple i)) [variable a] mt)])
      | None => fail
      end
  | XCast a => do s <- lower_expr a; ret (s ++ [XS (SBind self Alias [variable a] mt)])
  | XArray l => do s <- each lower_expr l; ret (s ++ [XS (SBind self (Op ConstructArray) (map variable l) mt)])
  | XRepeat a n => do s <- lower_expr a; ret (s ++ [XS (SBind self (Op ConstructArray) (repeat (variable a) n) mt)])
  | XIndex a i =>
      do s1 <- lower_expr a; do s2 <- lower_expr i;
      ret (s1 ++ s2 ++ [XS (SBind self (Op IndexArray) [variable a; variable i] mt)])
  | XRange a from upto =>
      do s <- lower_expr a;
      let start := match from with Some n => n | None => 0 end in
      match (match upto with Some n => Some n | None => match ety a with CArray _ n => Some n | _ => None end end) with
      | Some end_ => ret (s ++ [XS (SBind self (Op (RangeIndexArray start end_)) [variable a] mt)])
      | None => fail
      end
  | XBlock ss r =>
      do s1 <- each lower_stm ss;
      match r with
      | Some e => do s2 <- lower_expr e; ret (s1 ++ s2)
      | None => ret (s1 ++ [XNop self (TTuple [])])
      end
  | XIf c a b =>
      do s1 <- lower_expr c; do s2 <- lower_expr a; do s3 <- lower_expr b;
      ret (s1 ++ s2 ++ s3 ++ [XS (SBind self (Op Select) [variable c; variable a; variable b] mt)])
  | XMatch a arms =>
      do _ <- guard (exhaustive (ety a) arms);
      do s1 <- lower_expr a;
      do (s2, ops) <- lower_arms lower_expr (variable a) arms;
      ret (s1 ++ s2 ++ [XS (SBind self (Op Match) ops mt)])
  | XCall c args =>
      do s <- each lower_expr args;
      match call_stmt id mt c (map variable args) (map (fun a => to_mir_type (ety a)) args) with
      | Some st => ret (s ++ [st])
      | None => fail
      end
  end
with lower_stm (s : stm) : M (list xstmt) :=
  match s with
  | SLet p e =>
      do s1 <- lower_expr e; do _ <- guard (irrefutable p);
      do s2 <- lift (lower p (variable e) (to_mir_type (lty p)));
      ret (s1 ++ map XS s2)
  | SExpr e =>
      do s1 <- lower_expr e;
      do _ <- guard (match to_mir_type (ety e) with TTuple [] => true | _ => false end);
      ret s1
  | SRegister p clock reset value =>
      do s1 <- lower_expr clock;
      do s2 <- lower_opt (fun r => do a <- lower_expr (fst r); do b <- lower_expr (snd r); ret (a ++ b)) reset;
      do s3 <- lower_expr value;
      do _ <- guard (irrefutable p);
      do s4 <- lift (lower_inner p (value_name p));
      ret (s1 ++ s2 ++ s3 ++ [XReg (value_name p) (to_mir_type (lty p)) (variable clock)
             (option_map (fun r => (variable (fst r), variable (snd r))) reset) (variable value)] ++ map XS s4)
  | SAssert e => do s1 <- lower_expr e; ret (s1 ++ [XAssert (variable e)])
  | SDecl => ret []
  end.

(** lib.rs:3660-3832 [generate_unit]; spade-hir/src/lib.rs [Unit] *)
Record unit_ := Unit { inputs : list (nat * cty); body : expr }.
Record entity := Entity { en_inputs : list (mname * ty); en_output : mname; en_output_type : ty; en_stmts : list xstmt }.
Definition generate_unit (u : unit_) : M entity :=
  do s <- lower_expr (body u);
  ret (Entity (map (fun i => (NName (fst i), to_mir_type (snd i))) (inputs u)) (variable (body u)) (to_mir_type (ety (body u))) s).
(** spade-hir-lowering/src/monomorphisation.rs:220-560 [compile_items]: all units in turn, with one
    counter for fresh ids *)
Fixpoint compile (prog : list unit_) : M (list entity) :=
  match prog with
  | [] => ret []
  | u :: r => do e <- generate_unit u; do es <- compile r; ret (e :: es)
  end.
