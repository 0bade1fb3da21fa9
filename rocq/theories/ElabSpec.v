(** What is assumed of the declarations around a program, and of the sizes in it. *)
From Coq Require Import List ZArith Bool Arith String.
From Verif Require Import InferModel InferSpec TypingModel TypingSpec ElabModel.
From Verif Require PatModel LowerModel LowerSpec ExprModel ExprSpec.
Import ListNotations.
Local Open Scope list_scope.

(** No integer anywhere in the type has zero bits.  (For [int<0>] the checker takes
    the literal -1, [C52_minus_one_refuted].) *)
Inductive positive : cty -> Prop :=
| PO_int n : 0 < n -> positive (PatModel.CInt n)
| PO_uint n : 0 < n -> positive (PatModel.CUint n)
| PO_bool : positive PatModel.CBool
| PO_tuple ts : Forall positive ts -> positive (PatModel.CTuple ts)
| PO_struct ts : Forall positive ts -> positive (PatModel.CStruct ts)
| PO_array t n : positive t -> positive (PatModel.CArray t n)
| PO_enum os : Forall (Forall positive) os -> positive (PatModel.CEnum os).

(** What lowering relies on beyond types: no integers without bits, types for which
    the encoding is sound ([readable], C02), comparisons of plain data only (C11), and
    no reduction of an empty array. *)
Definition careful (e : ExprModel.expr) : Prop :=
  positive (ExprModel.ety e) /\ LowerSpec.readable (ExprModel.ety e) /\
  let '(ExprModel.Ex _ _ k) := e in
  match k with
  | ExprModel.XCall (ExprModel.CIntrinsic (ExprModel.IEq | ExprModel.INe)) args =>
      Forall (fun a => ExprSpec.plain (ExprModel.ety a)) args
  | ExprModel.XCall (ExprModel.CIntrinsic (ExprModel.IReduceAnd | ExprModel.IReduceOr | ExprModel.IReduceXor)) args =>
      Forall (fun a => ExprModel.ety a <> PatModel.CArray PatModel.CBool 0) args
  | _ => True
  end.

(** Types that say all of what they are *)
Fixpoint explicit (s : tspec) : bool :=
  match s with
  | TSWildcard => false
  | TSInt _ | TSBool _ | TSStr _ | TSConst _ | TSGeneric _ => true
  | TSNamed _ l | TSTuple l => forallb explicit l
  | TSArray a b => explicit a && explicit b
  | TSInverted a | TSCopyView a => explicit a
  end.

Section Declared.
Variables int_ uint_ bool_ clock_ : nat.
Definition int_of (k : nat) : tspec := TSNamed int_ [TSGeneric k].
Definition uint_of (k : nat) : tspec := TSNamed uint_ [TSGeneric k].
Definition bool_s : tspec := TSNamed bool_ [].
Definition bits (k : nat) : tspec := TSArray bool_s (TSGeneric k).
(** The special functions: core/ops.spade:473-500 [intrinsics], stdlib/num.spade:37-88,
    stdlib/ops.spade:117-175, core/conv.spade:11 [transmute] *)
Definition intrinsic_head (i : ExprModel.intrinsic) : head :=
  match i with
  | ExprModel.IEq | ExprModel.INe => Head [MType] [] [] [TSGeneric 0; TSGeneric 0] (Some bool_s) SpNone
  | ExprModel.IBitNot => Head [MUint] [] [] [bits 0] (Some (bits 0)) SpNone
  | ExprModel.IBitAnd | ExprModel.IBitOr | ExprModel.IBitXor => Head [MUint] [] [] [bits 0; bits 0] (Some (bits 0)) SpNone
  | ExprModel.ILt | ExprModel.ILe | ExprModel.IGt | ExprModel.IGe =>
      Head [MUint; MType] [(1, 0)] [] [TSGeneric 1; TSGeneric 1] (Some bool_s) SpNone
  | ExprModel.ITrunc => Head [MType; MType] [] [] [TSGeneric 0] (Some (TSGeneric 1)) SpTrunc
  | ExprModel.ISext => Head [MUint; MUint] [] [(1, WGeq, CVar 0)] [int_of 0] (Some (int_of 1)) SpNone
  | ExprModel.IZext => Head [MUint; MUint] [] [(1, WGeq, CVar 0)] [uint_of 0] (Some (uint_of 1)) SpNone
  | ExprModel.IConcat => Head [MType; MType; MType] [] [] [TSGeneric 0; TSGeneric 1] (Some (TSGeneric 2)) SpConcat
  | ExprModel.ITransmute => Head [MType; MType] [] [] [TSGeneric 0] (Some (TSGeneric 1)) SpNone
  | ExprModel.IReduceAnd | ExprModel.IReduceOr | ExprModel.IReduceXor => Head [MUint] [] [] [bits 0] (Some bool_s) SpNone
  | ExprModel.ICombDiv | ExprModel.ICombMod => Head [MType] [] [] [TSGeneric 0; TSGeneric 0] (Some (TSGeneric 0)) SpDivMod
  end.

Variable decls : nat -> option (nat * decl).
Variable structs : nat -> option struct_.
Variable heads : nat -> option head.
Variable member_name : nat -> string.
Variable callee_of : nat -> option ExprModel.callee.
(** the units of the program, in order *)
Variable units : list hunit.

(** A type with its own parameters for arguments *)
Definition self_spec (d k : nat) : tspec := TSNamed d (map TSGeneric (seq 0 k)).
(** The head of what a name refers to *)
Definition head_of (c : ExprModel.callee) (h : head) : Prop :=
  match c with
  | ExprModel.CIntrinsic i => h = intrinsic_head i
  | ExprModel.CStructInst => exists d ms, decls d = Some (List.length (hd_metas h), DStruct ms) /\
      hd_params h = map snd ms /\ hd_ret h = Some (self_spec d (List.length (hd_metas h)))
  | ExprModel.CVariant v => exists d os, decls d = Some (List.length (hd_metas h), DEnum os) /\
      nth_error os v = Some (hd_params h) /\ hd_ret h = Some (self_spec d (List.length (hd_metas h)))
  | ExprModel.CUnit k => exists u, nth_error units k = Some u /\ hd_metas h = [] /\ hu_metas u = [] /\
      hd_params h = map snd (hu_inputs u) /\ hd_ret h = hu_output u
  end.
Record declared : Prop := {
  de_int : decls int_ = Some (1, DPrim Signed);
  de_uint : decls uint_ = Some (1, DPrim Unsigned);
  de_bool : decls bool_ = Some (0, DPrim Boolean);
  de_clock : decls clock_ = Some (0, DPrim Clock);
  de_structs : forall d ms, structs d = Some ms -> exists k, decls d = Some (k, DStruct ms);
  de_members : forall d k ms, decls d = Some (k, DStruct ms) -> NoDup (map (fun m => member_name (fst m)) ms);
  de_heads : forall f c h, callee_of f = Some c -> heads f = Some h -> head_of c h;
  de_explicit : forall u, In u units -> Forall (fun i => explicit (snd i) = true) (hu_inputs u) /\
    forall o, hu_output u = Some o -> explicit o = true
}.
End Declared.
