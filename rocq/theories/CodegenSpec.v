(** Specification vocabulary for generated expressions. *)
From Coq Require Import List ZArith.
From Verif Require Import Bits Verilog CodegenModel.
Import ListNotations.

(** The vector [v] has the width of type [t]; its bits are arbitrary. *)
Definition has_width (t : ty) (v : bits) : Prop := length v = size t.

(** [v] is the hardware representation of the number [z] at integer type [t]:
    two's complement for [int], plain binary for [uint]. *)
Definition represents (t : ty) (v : bits) (z : Z) : Prop :=
  has_width t v /\
  match t with
  | TInt _ => sval v = Some z
  | TUInt _ => uval v = Some z
  | _ => False
  end.

(** [v] is a known truth value. *)
Definition is_bool (v : bits) (b : bool) : Prop := v = [if b then B1 else B0].

(** Typing of the operators: [typed op operand_types result_type].  The result
    widths are the ones type inference imposes
    (spade-typeinference/src/lib.rs, spade-hir-lowering/src/lib.rs). *)
Inductive typed : operator -> list ty -> ty -> Prop :=
| T_signed_sum op n : In op [Add; Sub] -> typed op [TInt n; TInt n] (TInt (n + 1))
| T_unsigned_sum op n : In op [UnsignedAdd; UnsignedSub] -> typed op [TUInt n; TUInt n] (TUInt (n + 1))
| T_mul n m : typed Mul [TInt n; TInt m] (TInt (n + m))
| T_umul n m : typed UnsignedMul [TUInt n; TUInt m] (TUInt (n + m))
| T_div op n : In op [Div; Mod] -> typed op [TInt n; TInt n] (TInt n)
| T_udiv op n : In op [UnsignedDiv; UnsignedMod] -> typed op [TUInt n; TUInt n] (TUInt n)
| T_eq op t : In op [Eq; NotEq] -> typed op [t; t] TBool
| T_cmp op n : In op [Gt; Lt; Ge; Le] -> typed op [TInt n; TInt n] TBool
| T_ucmp op n : In op [UnsignedGt; UnsignedLt; UnsignedGe; UnsignedLe] -> typed op [TUInt n; TUInt n] TBool
| T_shift op n k : In op [LeftShift; RightShift] -> typed op [TUInt n; TUInt k] (TUInt n)
| T_sar n k : typed ArithmeticRightShift [TInt n; TInt k] (TInt n)
| T_logic op : In op [LogicalAnd; LogicalOr; LogicalXor] -> typed op [TBool; TBool] TBool
| T_not op : In op [LogicalNot; Not] -> typed op [TBool] TBool
| T_bitwise op t : In op [BitwiseAnd; BitwiseOr; BitwiseXor] -> typed op [t; t] t
| T_bitnot t : typed BitwiseNot [t] t
| T_neg n : typed USub [TInt n] (TInt n)
| T_reduce op t : In op [ReduceAnd; ReduceOr; ReduceXor] -> typed op [t] TBool
| T_divpow2 n k : typed DivPow2 [TInt n; TUInt k] (TInt n)
| T_trunc t0 t : size t <= size t0 -> typed Truncate [t0] t
| T_sext t0 t : size t0 <= size t -> typed SignExtend [t0] t
| T_zext t0 t : size t0 <= size t -> typed ZeroExtend [t0] t
| T_concat tys t : size t = list_sum (map size tys) -> typed Concat tys t
| T_select t : typed Select [TBool; t; t] t
| T_match t n : 0 < n -> typed Match (concat (repeat [TBool; t] n)) t
| T_index_tuple t0 ms i t : tuple_members t0 = Some ms -> nth_error ms i = Some t -> typed (IndexTuple i) [t0] t
| T_array t n : typed ConstructArray (repeat t n) (TArray t n)
| T_index_array t n it : 0 < n -> typed IndexArray [TArray t n; it] t
| T_range_array t n s e : s < e -> e <= n -> typed (RangeIndexArray s e) [TArray t n] (TArray t (e - s))
| T_enum options v tys : nth_error options v = Some tys -> typed (ConstructEnum v) tys (TEnum options)
| T_is_variant options v : v < length options -> typed (IsEnumVariant v) [TEnum options] TBool
| T_enum_member options v tys i t : nth_error options v = Some tys -> nth_error tys i = Some t ->
    typed (EnumMember v i) [TEnum options] t
| T_tuple tys : typed ConstructTuple tys (TTuple tys)
| T_struct fields : typed ConstructTuple (map snd fields) (TStruct fields).

(** Operators whose code leaves out zero-width operands. *)
Definition zero_width_aware (op : operator) : bool :=
  match op with
  | Eq | NotEq | Gt | UnsignedGt | Lt | UnsignedLt | Ge | UnsignedGe | Le | UnsignedLe
  | Concat | ConstructTuple | ConstructEnum _ | IsEnumVariant _ => true
  | IndexArray => false
  | _ => false
  end.

(** Every signal is declared with its type's width. *)
Definition declared (tys : list ty) : vname -> nat :=
  fun x => match x with Fwd n => size (nth n tys (TTuple [])) | Bwd _ => 0 end.
