(** What expressions mean (C37): the grammar, and a printer. *)
From Coq Require Import List ZArith Bool Arith.
From Verif Require Import ParseModel.
Import ListNotations.
Local Open Scope list_scope.

(** ** Operators *)
(** How tightly a binary operator binds. *)
Definition level (o : binop) : nat :=
  match o with
  | BLogicalOr => 1
  | BLogicalAnd => 2
  | BLogicalXor => 3
  | BEq | BNeq => 4
  | BLt | BGt | BLe | BGe => 5
  | BBitwiseOr => 6
  | BBitwiseXor => 7
  | BBitwiseAnd => 8
  | BLeftShift | BRightShift | BArithmeticRightShift | BWrappingLeftShift | BWrappingRightShift => 9
  | BAdd | BSub | BWrappingAdd | BWrappingSub => 10
  | BMul | BDiv | BMod | BWrappingMul => 11
  end.

(** How operators are written. *)
Definition spell (o : binop) : opkind :=
  match o with
  | BAdd => KPlus | BSub => KMinus | BMul => KAsterisk | BDiv => KSlash | BMod => KPercentage
  | BEq => KEquals | BNeq => KNotEquals | BLt => KLt | BGt => KGt | BLe => KLe | BGe => KGe
  | BLogicalAnd => KLogicalAnd | BLogicalOr => KDoublePipe | BLogicalXor => KLogicalXor
  | BLeftShift => KLeftShift | BRightShift => KRightShift
  | BArithmeticRightShift => KArithmeticRightShift
  | BBitwiseAnd => KAmpersand | BBitwiseOr => KPipe | BBitwiseXor => KBitwiseXor
  | BWrappingAdd => KPlusDot | BWrappingSub => KMinusDot | BWrappingMul => KAsteriskDot
  | BWrappingLeftShift => KLeftShiftDot | BWrappingRightShift => KRightShiftDot
  end.
Definition uspell (u : unop) : opkind :=
  match u with
  | USub_ => KMinus | UWrappingSub => KMinusDot | UNot_ => KNot | UBitwiseNot => KTilde
  | UDereference => KAsterisk | UReference => KAmpersand
  end.

(** A prefix operator before an operand.  A minus sign before an integer
    literal makes a negative literal; it is refused before an unsigned one. *)
Definition prefixed (u : unop) (e : expr) : option expr :=
  match u, e with
  | USub_, EInt z (Unsigned _) => None
  | USub_, EInt z k => Some (EInt (- z) k)
  | _, _ => Some (EUn u e)
  end.

(** ** The grammar
    [G lenient ... tokens expression].  With [lenient] it also has the three
    things the parser tolerates: a missing comma after the first element of an
    array, a [$] after a name, and a sign before a tuple index. *)
Section Grammar.
Variable lenient : bool.

(** Expressions: infix calls of named functions bind loosest and group to the
    right. *)
Inductive g_expr : list tok -> expr -> Prop :=
| GE_bin ts e : g_bin 1 ts e -> g_expr ts e
| GE_infix ts f ts' l r : g_bin 1 ts l -> g_expr ts' r ->
    g_expr (ts ++ TkTick :: TkId f :: TkTick :: ts')
      (ECall f (APositional (ECons l (ECons r ENil))))
(** Level [k]: binary operators of level [k] or more; a level groups to the
    left. *)
with g_bin : nat -> list tok -> expr -> Prop :=
| GB_un ts e : g_un ts e -> g_bin 12 ts e
| GB_up k ts e : k < 12 -> g_bin (S k) ts e -> g_bin k ts e
| GB_op o ts ts' l r : g_bin (level o) ts l -> g_bin (S (level o)) ts' r ->
    g_bin (level o) (ts ++ TkOp (spell o) :: ts') (EBin l o r)
(** Prefix operators. *)
with g_un : list tok -> expr -> Prop :=
| GU_post ts e : g_post ts e -> g_un ts e
| GU_op u ts e e' : g_un ts e -> prefixed u e = Some e' -> g_un (TkOp (uspell u) :: ts) e'
(** Suffixes; a type cast ends them. *)
with g_post : list tok -> expr -> Prop :=
| GP_suf ts e : g_suf ts e -> g_post ts e
| GP_cast ts e t : g_suf ts e -> g_post (ts ++ [TkAs; TkTy t]) (ECast e t)
with g_suf : list tok -> expr -> Prop :=
| GS_base ts e : g_base ts e -> g_suf ts e
| GS_tuple_index ts e v k (deprecated : bool) : g_suf ts e -> (Z.of_N v < 2 ^ 128)%Z ->
    g_suf (ts ++ [if deprecated then TkHash else TkDot; TkInt v k]) (ETupleIndex e (Z.of_N v) deprecated)
| GS_tuple_index_plus ts e v k (deprecated : bool) : lenient = true -> g_suf ts e -> (Z.of_N v < 2 ^ 128)%Z ->
    g_suf (ts ++ [if deprecated then TkHash else TkDot; TkOp KPlus; TkInt v k])
      (ETupleIndex e (Z.of_N v) deprecated)
| GS_tuple_index_minus ts e v k (deprecated : bool) : lenient = true -> g_suf ts e -> (Z.of_N v < 2 ^ 128)%Z ->
    g_suf (ts ++ [if deprecated then TkHash else TkDot; TkOp KMinus; TkInt v k])
      (ETupleIndex e (Z.of_N v) deprecated)
| GS_field ts e x : g_suf ts e -> g_suf (ts ++ [TkDot; TkId x]) (EField e x)
| GS_field_dollar ts e x : lenient = true -> g_suf ts e -> g_suf (ts ++ [TkDot; TkId x; TkDollar]) (EField e x)
| GS_method ts e x ats a : g_suf ts e -> g_args ats a ->
    g_suf (ts ++ TkDot :: TkId x :: ats) (EMethod e x a)
| GS_index ts e ts' i : g_suf ts e -> g_expr ts' i ->
    g_suf (ts ++ TkLB :: ts' ++ [TkRB]) (EIndex e i)
| GS_range ts e ts1 s ts2 t : g_suf ts e -> g_opt ts1 s -> g_opt ts2 t ->
    g_suf (ts ++ TkLB :: ts1 ++ TkDotDot :: ts2 ++ [TkRB]) (ERange e s t)
with g_opt : list tok -> oexpr -> Prop :=
| GO_none : g_opt [] ENone
| GO_some ts e : g_expr ts e -> g_opt ts (ESome e)
with g_base : list tok -> expr -> Prop :=
| GA_int v k : g_base [TkInt v k] (EInt (Z.of_N v) k)
| GA_plus v k : g_base [TkOp KPlus; TkInt v k] (EInt (Z.of_N v) k)
| GA_bool b : g_base [TkBool b] (EBool b)
| GA_id x : g_base [TkId x] (EId x)
| GA_id_dollar x : lenient = true -> g_base [TkId x; TkDollar] (EId x)
| GA_call x ats a : g_args ats a -> g_base (TkId x :: ats) (ECall x a)
| GA_unit : g_base [TkLP; TkRP] (ETuple ENil)
| GA_unit_comma : g_base [TkLP; TkComma; TkRP] (ETuple ENil)
| GA_paren ts e : g_expr ts e -> g_base (TkLP :: ts ++ [TkRP]) (EParen e)
| GA_tuple ts e ts' l : g_expr ts e -> g_list ts' l ->
    g_base (TkLP :: ts ++ TkComma :: ts' ++ [TkRP]) (ETuple (ECons e l))
| GA_array ts l : g_list ts l -> g_base (TkLB :: ts ++ [TkRB]) (EArray l)
| GA_array_no_comma ts e ts' l : lenient = true -> g_expr ts e -> g_list ts' l ->
    g_base (TkLB :: ts ++ ts' ++ [TkRB]) (EArray (ECons e l))
| GA_shorthand ts e ts' n : g_expr ts e -> g_expr ts' n ->
    g_base (TkLB :: ts ++ TkSemi :: ts' ++ [TkRB]) (EShorthand e n)
| GA_block ts e : g_block ts e -> g_base ts e
| GA_if ts e : g_if ts e -> g_base ts e
with g_block : list tok -> expr -> Prop :=
| GB_block ts e : g_expr ts e -> g_block (TkLBrace :: ts ++ [TkRBrace]) (EBlock e)
with g_if : list tok -> expr -> Prop :=
| GI_else ts c ts1 t ts2 f : g_expr ts c -> g_block ts1 t -> g_block ts2 f ->
    g_if (TkIf :: ts ++ ts1 ++ TkElse :: ts2) (EIf c t f)
| GI_elif ts c ts1 t ts2 f : g_expr ts c -> g_block ts1 t -> g_if ts2 f ->
    g_if (TkIf :: ts ++ ts1 ++ TkElse :: ts2) (EIf c t f)
with g_args : list tok -> args -> Prop :=
| GR_positional ts l : g_list ts l -> g_args (TkLP :: ts ++ [TkRP]) (APositional l)
| GR_named ts l : g_named ts l -> g_args (TkDollar :: TkLP :: ts ++ [TkRP]) (ANamed l)
(** Separated by commas, with an optional comma at the end. *)
with g_list : list tok -> exprs -> Prop :=
| GL_nil : g_list [] ENil
| GL_one ts e : g_expr ts e -> g_list ts (ECons e ENil)
| GL_cons ts e ts' l : g_expr ts e -> g_list ts' l -> g_list (ts ++ TkComma :: ts') (ECons e l)
with g_named : list tok -> named -> Prop :=
| GN_nil : g_named [] NNil
| GN_full_one x ts e : g_expr ts e -> g_named (TkId x :: TkColon :: ts) (NFull x e NNil)
| GN_full x ts e ts' l : g_expr ts e -> g_named ts' l ->
    g_named (TkId x :: TkColon :: ts ++ TkComma :: ts') (NFull x e l)
| GN_short_one x : g_named [TkId x] (NShort x NNil)
| GN_short x ts' l : g_named ts' l -> g_named (TkId x :: TkComma :: ts') (NShort x l).
End Grammar.

(** ** Printing *)
(** Level of an expression: 1-11 binary, 12 prefix, 13 cast, 14 the rest. *)
Definition level_of (e : expr) : nat :=
  match e with
  | EBin _ o _ => level o
  | EUn _ _ => 12
  | EInt z _ => if (z <? 0)%Z then 12 else 14
  | ECast _ _ => 13
  | _ => 14
  end.

Definition is_literal (e : expr) : bool := match e with EInt _ _ => true | _ => false end.

(** [print e k]: the tokens of [e] where something of level [k] or more is
    expected.  Parentheses are put where the level is too low, and around a
    literal under a minus operator. *)
Fixpoint print (e : expr) (k : nat) : list tok :=
  let body :=
    match e with
    | EInt z kd => if (z <? 0)%Z then [TkOp KMinus; TkInt (Z.to_N (- z)) kd] else [TkInt (Z.to_N z) kd]
    | EBool b => [TkBool b]
    | EId x => [TkId x]
    | ECall f a => TkId f :: print_args a
    | ETuple ENil => [TkLP; TkRP]
    | ETuple (ECons e l) => TkLP :: print e 1 ++ TkComma :: print_list l ++ [TkRP]
    | EParen e => TkLP :: print e 1 ++ [TkRP]
    | EArray l => TkLB :: print_list l ++ [TkRB]
    | EShorthand e n => TkLB :: print e 1 ++ TkSemi :: print n 1 ++ [TkRB]
    | EIndex e i => print e 14 ++ TkLB :: print i 1 ++ [TkRB]
    | ERange e s t => print e 14 ++ TkLB :: print_opt s ++ TkDotDot :: print_opt t ++ [TkRB]
    | ETupleIndex e i dep => print e 14 ++ [if dep then TkHash else TkDot; TkInt (Z.to_N i) Unsized]
    | EField e x => print e 14 ++ [TkDot; TkId x]
    | EMethod e x a => print e 14 ++ TkDot :: TkId x :: print_args a
    | ECast e t => print e 14 ++ [TkAs; TkTy t]
    | EUn u e => TkOp (uspell u) ::
        (if is_literal e then TkLP :: print e 1 ++ [TkRP] else print e 12)
    | EBin l o r => print l (level o) ++ TkOp (spell o) :: print r (S (level o))
    | EBlock e => TkLBrace :: print e 1 ++ [TkRBrace]
    | EIf c t f => TkIf :: print c 1 ++ print t 14 ++ TkElse :: print f 14
    end in
  if level_of e <? k then TkLP :: body ++ [TkRP] else body
with print_list (l : exprs) : list tok :=
  match l with
  | ENil => []
  | ECons e ENil => print e 1
  | ECons e l => print e 1 ++ TkComma :: print_list l
  end
with print_opt (o : oexpr) : list tok :=
  match o with ENone => [] | ESome e => print e 1 end
with print_args (a : args) : list tok :=
  match a with
  | APositional l => TkLP :: print_list l ++ [TkRP]
  | ANamed l => TkDollar :: TkLP :: print_named l ++ [TkRP]
  end
with print_named (l : named) : list tok :=
  match l with
  | NNil => []
  | NFull x e l => TkId x :: TkColon :: print e 1 ++ TkComma :: print_named l
  | NShort x l => TkId x :: TkComma :: print_named l
  end.

(** The expression without its parentheses. *)
Fixpoint strip (e : expr) : expr :=
  match e with
  | EInt _ _ | EBool _ | EId _ => e
  | ECall f a => ECall f (strip_args a)
  | ETuple l => ETuple (strip_list l)
  | EParen e => strip e
  | EArray l => EArray (strip_list l)
  | EShorthand e n => EShorthand (strip e) (strip n)
  | EIndex e i => EIndex (strip e) (strip i)
  | ERange e s t => ERange (strip e) (strip_opt s) (strip_opt t)
  | ETupleIndex e i d => ETupleIndex (strip e) i d
  | EField e x => EField (strip e) x
  | EMethod e x a => EMethod (strip e) x (strip_args a)
  | ECast e t => ECast (strip e) t
  | EUn u e => EUn u (strip e)
  | EBin l o r => EBin (strip l) o (strip r)
  | EBlock e => EBlock (strip e)
  | EIf c t f => EIf (strip c) (strip t) (strip f)
  end
with strip_list (l : exprs) : exprs :=
  match l with ENil => ENil | ECons e l => ECons (strip e) (strip_list l) end
with strip_opt (o : oexpr) : oexpr :=
  match o with ENone => ENone | ESome e => ESome (strip e) end
with strip_args (a : args) : args :=
  match a with APositional l => APositional (strip_list l) | ANamed l => ANamed (strip_named l) end
with strip_named (l : named) : named :=
  match l with
  | NNil => NNil
  | NFull x e l => NFull x (strip e) (strip_named l)
  | NShort x l => NShort x (strip_named l)
  end.

(** Expressions that can be written down: unsigned literals are not negative,
    tuple indices are in range, and the branches of an [if] are blocks. *)
Fixpoint valid (e : expr) : Prop :=
  match e with
  | EInt z (Unsigned _) => (0 <= z)%Z
  | EInt _ _ | EBool _ | EId _ => True
  | ECall _ a => valid_args a
  | ETuple l | EArray l => valid_list l
  | EParen e | EField e _ | ECast e _ | EUn _ e | EBlock e => valid e
  | EShorthand e n => valid e /\ valid n
  | EIndex e i => valid e /\ valid i
  | ERange e s t => valid e /\ valid_opt s /\ valid_opt t
  | ETupleIndex e i _ => valid e /\ (0 <= i < 2 ^ 128)%Z
  | EMethod e _ a => valid e /\ valid_args a
  | EBin l _ r => valid l /\ valid r
  | EIf c t f => valid c /\ valid t /\ valid f
      /\ match t with EBlock _ => True | _ => False end
      /\ match f with EBlock _ | EIf _ _ _ => True | _ => False end
  end
with valid_list (l : exprs) : Prop :=
  match l with ENil => True | ECons e l => valid e /\ valid_list l end
with valid_opt (o : oexpr) : Prop :=
  match o with ENone => True | ESome e => valid e end
with valid_args (a : args) : Prop :=
  match a with APositional l => valid_list l | ANamed l => valid_named l end
with valid_named (l : named) : Prop :=
  match l with
  | NNil => True
  | NFull _ e l => valid e /\ valid_named l
  | NShort _ l => valid_named l
  end.
