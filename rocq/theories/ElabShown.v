(** What lowering sees of a unit is the unit itself, with the types found for it. *)
From Coq Require Import List ZArith Bool Arith String.
From Verif Require Import InferModel InferSpec TypingModel TypingSpec ElabModel.
From Verif Require PatModel LowerModel ExprModel.
Import ListNotations.
Local Open Scope list_scope.

(** The type a written or found type is, by the declarations alone. *)
Inductive opt2 {A B} (R : A -> B -> Prop) : option A -> option B -> Prop :=
| opt2_none : opt2 R None None
| opt2_some a b : R a b -> opt2 R (Some a) (Some b).
Section Shown.
Variable decls : nat -> option (nat * decl).
Inductive written : list conc -> tspec -> conc -> Prop :=
| W_int ps z : written ps (TSInt z) (CN z)
| W_bool ps b : written ps (TSBool b) (CB b)
| W_str ps s : written ps (TSStr s) (CS s)
| W_parameter ps k c : nth_error ps k = Some c -> written ps (TSGeneric k) c
| W_named ps d l qs t : Forall2 (written ps) l qs -> instance d qs t -> written ps (TSNamed d l) (CT t)
| W_tuple ps l ts : Forall2 (fun s t => written ps s (CT t)) l ts -> written ps (TSTuple l) (CT (PatModel.CTuple ts))
| W_array ps a n t k : written ps a (CT t) -> written ps n (CN (Z.of_nat k)) -> written ps (TSArray a n) (CT (PatModel.CArray t k))
with instance : nat -> list conc -> cty -> Prop :=
| I_int d n : decls d = Some (1, DPrim Signed) -> instance d [CN (Z.of_nat n)] (PatModel.CInt n)
| I_uint d n : decls d = Some (1, DPrim Unsigned) -> instance d [CN (Z.of_nat n)] (PatModel.CUint n)
| I_bool d : decls d = Some (0, DPrim Boolean) -> instance d [] PatModel.CBool
| I_clock d : decls d = Some (0, DPrim Clock) -> instance d [] PatModel.CBool
| I_struct d qs ms ts : decls d = Some (List.length qs, DStruct ms) -> Forall2 (fun m t => written qs (snd m) (CT t)) ms ts ->
    instance d qs (PatModel.CStruct ts)
| I_enum d qs os ts : decls d = Some (List.length qs, DEnum os) -> Forall2 (Forall2 (fun s t => written qs s (CT t))) os ts ->
    instance d qs (PatModel.CEnum ts).
Inductive stands : ty -> conc -> Prop :=
| ST_int z l : stands (TK (BInt z) l) (CN z)
| ST_bool b l : stands (TK (BBool b) l) (CB b)
| ST_str s l : stands (TK (BStr s) l) (CS s)
| ST_named d l qs t : Forall2 stands l qs -> instance d qs t -> stands (TK (BNamed d) l) (CT t)
| ST_tuple l ts : Forall2 (fun s t => stands s (CT t)) l ts -> stands (TK BTuple l) (CT (PatModel.CTuple ts))
| ST_array a n t k : stands a (CT t) -> stands n (CN (Z.of_nat k)) -> stands (TK BArray [a; n]) (CT (PatModel.CArray t k)).

(** [shows e x]: [x] is the expression [e], each part with the type found for it, with the
    sizes in it, and the branch taken in place of each [gen if]. *)
Variable member_name : nat -> string.
Variable callee_of : nat -> option ExprModel.callee.
Variable ty_of : key -> option ty.
Variable gs : list ty.
Definition of_type (k : key) (t : cty) : Prop := exists u, ty_of k = Some u /\ stands u (CT t).
Definition of_size (c : const) (n : nat) : Prop := exists u, ty_of (KId (fst c)) = Some u /\ stands u (CN (Z.of_nat n)).
Inductive shows_pat : hpat -> LowerModel.lpat -> Prop :=
| SP id t k k' : of_type (KId id) t -> shows_pat_kind k k' -> shows_pat (HP id k) (LowerModel.LPat id t k')
with shows_pat_kind : hpkind -> LowerModel.lkind -> Prop :=
| SP_int z : shows_pat_kind (PInt z) (LowerModel.KInteger z)
| SP_bool b : shows_pat_kind (PBool b) (LowerModel.KBoolean b)
| SP_bound x d p p' : opt2 shows_pat p p' -> shows_pat_kind (PBound x d p) (LowerModel.KBound x p')
| SP_tuple l q : Forall2 shows_pat l q -> shows_pat_kind (PTuple l) (LowerModel.KTuple q)
| SP_array l q : Forall2 shows_pat l q -> shows_pat_kind (PArray l) (LowerModel.KArray q)
| SP_struct f l q : callee_of f = Some ExprModel.CStructInst -> Forall2 shows_pat l q -> shows_pat_kind (PType f l) (LowerModel.KStruct q)
| SP_variant f v l q : callee_of f = Some (ExprModel.CVariant v) -> Forall2 shows_pat l q -> shows_pat_kind (PType f l) (LowerModel.KVariant v q).
Inductive shows : hx -> ExprModel.expr -> Prop :=
| SX id t k k' : of_type (KId id) t -> shows_kind k k' -> shows (HX id k) (ExprModel.Ex id t k')
| SX_taken id c l a b x : ty_of (KId (fst c)) = Some (TK (BBool true) l) -> shows a x -> shows (HX id (HGenIf c a b)) x
| SX_not_taken id c l a b x : ty_of (KId (fst c)) = Some (TK (BBool false) l) -> shows b x -> shows (HX id (HGenIf c a b)) x
with shows_kind : hkind -> ExprModel.ekind -> Prop :=
| SX_name x : shows_kind (HName x) (ExprModel.XName x)
| SX_int z w : shows_kind (HInt z w) (ExprModel.XInt z)
| SX_bool b : shows_kind (HBool b) (ExprModel.XBool b)
| SX_parameter g z l : nth_error gs g = Some (TK (BInt z) l) -> shows_kind (HTypeInt g) (ExprModel.XInt z)
| SX_tuple l q : Forall2 shows l q -> shows_kind (HTuple l) (ExprModel.XTuple q)
| SX_member a x i : shows a x -> shows_kind (HTupleIndex a i) (ExprModel.XTupleIndex x i)
| SX_field a x f d l k ms : shows a x -> ty_of (KId (hid a)) = Some (TK (BNamed d) l) -> decls d = Some (k, DStruct ms) ->
    shows_kind (HField a f) (ExprModel.XField x (map (fun m => member_name (fst m)) ms) (member_name f))
| SX_cast a x s : shows a x -> shows_kind (HCast a s) (ExprModel.XCast x)
| SX_array l q : Forall2 shows l q -> shows_kind (HArray l) (ExprModel.XArray q)
| SX_repeat a x c n : shows a x -> of_size c n -> shows_kind (HRepeat a c) (ExprModel.XRepeat x n)
| SX_index a x i y : shows a x -> shows i y -> shows_kind (HIndex a i) (ExprModel.XIndex x y)
| SX_range a x s n e m : shows a x -> opt2 of_size s n -> opt2 of_size e m -> shows_kind (HRange a s e) (ExprModel.XRange x n m)
| SX_block ss q r y : Forall2 shows_stm ss q -> opt2 shows r y -> shows_kind (HBlock ss r) (ExprModel.XBlock q y)
| SX_if c x a y b z : shows c x -> shows a y -> shows b z -> shows_kind (HIf c a b) (ExprModel.XIf x y z)
| SX_match a x arms q : shows a x -> Forall2 shows_arm arms q -> shows_kind (HMatch a arms) (ExprModel.XMatch x q)
| SX_bin op a x b y : shows a x -> shows b y -> shows_kind (HBin op a b) (ExprModel.XBin op x y)
| SX_un op a x : shows a x -> shows_kind (HUn op a) (ExprModel.XUn op x)
| SX_call f tf c l q : callee_of f = Some c -> Forall2 shows l q -> shows_kind (HCall f tf l) (ExprModel.XCall c q)
with shows_arm : hpat * option hx * hx -> LowerModel.lpat * option ExprModel.expr * ExprModel.expr -> Prop :=
| SX_arm p p' g g' e e' : shows_pat p p' -> opt2 shows g g' -> shows e e' -> shows_arm (p, g, e) (p', g', e')
with shows_stm : hstm -> ExprModel.stm -> Prop :=
| SX_let p p' s e x : shows_pat p p' -> shows e x -> shows_stm (HLet p s e) (ExprModel.SLet p' x)
| SX_expr e x : shows e x -> shows_stm (HExpr e) (ExprModel.SExpr x)
| SX_register p p' s c x v y : shows_pat p p' -> shows c x -> shows v y ->
    shows_stm (HReg p s c v None None) (ExprModel.SRegister p' x None y)
| SX_reset p p' s c x v y a b x1 x2 : shows_pat p p' -> shows c x -> shows v y -> shows a x1 -> shows b x2 ->
    shows_stm (HReg p s c v (Some (a, b)) None) (ExprModel.SRegister p' x (Some (x1, x2)) y)
| SX_decl l : shows_stm (HDecl l) ExprModel.SDecl
| SX_assert e x : shows e x -> shows_stm (HAssert e) (ExprModel.SAssert x).
Definition shows_unit (u : hunit) (v : ExprModel.unit_) : Prop :=
  Forall2 (fun i x => fst x = fst i /\ of_type (KName (fst i)) (snd x)) (hu_inputs u) (ExprModel.inputs v) /\
  shows (hu_body u) (ExprModel.body v).
End Shown.
