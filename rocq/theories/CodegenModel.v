(** Model of MIR types and of the Verilog expression generator.
    Source: spade-mir/src/types.rs, enum_util.rs, codegen/mod.rs, codegen/util.rs.

    Simplifications: BigUint and u64/usize are [nat]; a MIR value name is a
    number; generated text is represented by the Verilog AST of Verilog.v (the
    spelling of the text is not modelled). *)
From Coq Require Import List ZArith Bool Arith String.
From Verif Require Import Bits Verilog.
Import ListNotations.
Local Open Scope list_scope.
Local Open Scope nat_scope.

(** spade-mir/src/types.rs:4-28 *)
Inductive ty :=
| TInt (n : nat)
| TUInt (n : nat)
| TBool
| TTuple (l : list ty)
| TStruct (l : list (string * ty))
| TArray (inner : ty) (len : nat)
| TMemory (inner : ty) (len : nat)
| TEnum (l : list (list ty))
| TBackward (inner : ty)
| TCopyView (inner : ty)
| TInOut (inner : ty).

(** core::num::usize::next_power_of_two: smallest power of two >= n (1 for 0). *)
Definition next_power_of_two (n : nat) : nat :=
  match n with
  | 0 | 1 => 1
  | S m => 2 ^ (Nat.log2 m + 1)
  end.
(** spade-mir/src/enum_util.rs:1-3 *)
Definition tag_size (variant_count : nat) : nat := Nat.log2 (next_power_of_two variant_count).

(** spade-mir/src/types.rs:42-66 [Type::size] *)
Fixpoint size (t : ty) : nat :=
  match t with
  | TInt n => n
  | TUInt n => n
  | TBool => 1
  | TTuple l => list_sum (map size l)
  | TStruct l => list_sum (map (fun p => size (snd p)) l)
  | TEnum l =>
      Nat.log2 (next_power_of_two (List.length l))
      + list_max (map (fun m => list_sum (map size m)) l)
  | TArray inner len => size inner * len
  | TMemory inner len => size inner * len
  | TBackward _ => 0
  | TCopyView inner => size inner
  | TInOut inner => size inner
  end.

(** spade-mir/src/types.rs:68-98 [Type::backward_size].  The [unreachable!] for a
    memory holding output wires is not modelled (0 is returned). *)
Fixpoint backward_size (t : ty) : nat :=
  match t with
  | TBackward inner => size inner
  | TCopyView _ => 0
  | TInt _ | TUInt _ | TBool => 0
  | TArray inner len => backward_size inner * len
  | TEnum _ => 0
  | TMemory _ _ => 0
  | TTuple l => list_sum (map backward_size l)
  | TStruct l => list_sum (map (fun p => backward_size (snd p)) l)
  | TInOut _ => 0
  end.

(** spade-mir/src/types.rs:114-121 *)
Fixpoint strip_copy_view_layers (t : ty) : ty :=
  match t with TCopyView i => strip_copy_view_layers i | _ => t end.

(** spade-mir/src/lib.rs:170-320 [Operator]; [Instance], [ReadPort],
    [ReadMutWires], [FlipPort], [ReadWriteItemsInOut], [Alias], [BlackBoxAlias]
    and [Nop] are statement-level and appear in other model files. *)
Inductive operator :=
| Add | UnsignedAdd | Sub | UnsignedSub | Mul | UnsignedMul
| Div | UnsignedDiv | Mod | UnsignedMod
| Eq | NotEq | Gt | UnsignedGt | Lt | UnsignedLt | Ge | UnsignedGe | Le | UnsignedLe
| LeftShift | RightShift | ArithmeticRightShift
| LogicalAnd | LogicalOr | LogicalXor | LogicalNot
| BitwiseAnd | BitwiseOr | BitwiseXor
| ReduceAnd | ReduceOr | ReduceXor
| USub | Not | BitwiseNot
| DivPow2 | SignExtend | ZeroExtend | Truncate | Concat | Select | Match
| ConstructArray | IndexArray
| RangeIndexArray (start end_exclusive : nat)
| RangeIndexBits (start end_exclusive : nat)
| ConstructTuple
| ConstructEnum (variant : nat)
| ConstructCopyView
| IsEnumVariant (variant : nat)
| EnumMember (variant member_index : nat)
| IndexTuple (i : nat).

(** Result of a code generation function: a driver, or a Rust panic. *)
Inductive res (A : Type) := Ok (a : A) | Panic.
Arguments Ok {A}. Arguments Panic {A}.

(** spade-mir/src/codegen/util.rs:76-88 *)
Inductive tuple_index :=
| TiNone
| TiZeroWidth
| TiSingle (i : nat)
| TiRange (left right : nat).

(** spade-mir/src/codegen/mod.rs:192-218 [compute_tuple_index]; [None] is an
    index-out-of-bounds panic. *)
Definition compute_tuple_index (idx : nat) (sizes : list nat) : option tuple_index :=
  match nth_error sizes idx with
  | None => None
  | Some target_width =>
      let start_bit := list_sum (firstn idx sizes) in
      let end_bit := start_bit + target_width in
      let total_width := list_sum sizes in
      Some
        (if target_width =? 0 then TiZeroWidth
         else if total_width =? 1 then TiNone
         else if target_width =? 1 then TiSingle (total_width - start_bit - 1)
         else TiRange (total_width - start_bit - 1) (total_width - end_bit))
  end.

(** spade-mir/src/codegen/util.rs:90-99 [TupleIndex::verilog_code], applied to
    the name it is appended to. *)
Definition tuple_index_code (x : vname) (i : tuple_index) : res vexpr :=
  match i with
  | TiNone => Ok (VVar x)
  | TiZeroWidth => Panic
  | TiSingle i => Ok (VBitC x i)
  | TiRange l r => Ok (VRange x l r)
  end.

Definition nonzero (n : nat) : bool := negb (n =? 0).

(** The member types an [IndexTuple] sees:
    spade-mir/src/codegen/mod.rs:447-454 (and 882-889 for the backward copy). *)
Definition tuple_members (t : ty) : option (list ty) :=
  match strip_copy_view_layers t with
  | TTuple l => Some l
  | TStruct l => Some (map snd l)
  | TArray inner len => Some (repeat inner len)
  | _ => None
  end.

(** [cases] of [Operator::Match], codegen/mod.rs:411-425: for branch [i] of [n],
    [i] zeros, a one, [n-i-1] wildcards. *)
Definition match_item (n i : nat) : list cdigit :=
  repeat C0 i ++ [C1] ++ repeat CAny (n - i - 1).

Fixpoint pairs {A} (l : list A) : list (A * A) :=
  match l with
  | c :: r :: rest => (c, r) :: pairs rest
  | _ => []
  end.

Section Forward.
  (** [types]: codegen's [MirTypeList] lookup; [self_type]: type of the bound name. *)
  Variable types : nat -> ty.
  Variable self_type : ty.

  Definition fv (n : nat) : vexpr := VVar (Fwd n).

  Definition binop_code (o : binop) (ops : list nat) : res vexpr :=
    match ops with
    | [a; b] => Ok (VBin o (fv a) (fv b))
    | _ => Panic
    end.
  (** [binop!(..; zst => e)], codegen/mod.rs:230-246 *)
  Definition binop_zst (o : binop) (z : bit) (ops : list nat) : res vexpr :=
    match ops with
    | [a; b] =>
        if size (types a) =? 0 then Ok (VLit [z]) else Ok (VBin o (fv a) (fv b))
    | _ => Panic
    end.
  (** [signed_binop!], codegen/mod.rs:248-267 *)
  Definition signed_code (o : binop) (ops : list nat) : res vexpr :=
    match ops with
    | [a; b] => Ok (VBin o (VSigned (fv a)) (VSigned (fv b)))
    | _ => Panic
    end.
  Definition signed_zst (o : binop) (z : bit) (ops : list nat) : res vexpr :=
    match ops with
    | [a; b] =>
        if size (types a) =? 0 then Ok (VLit [z])
        else Ok (VBin o (VSigned (fv a)) (VSigned (fv b)))
    | _ => Panic
    end.
  (** [unop!], codegen/mod.rs:269-277 *)
  Definition unop_code (o : unop) (ops : list nat) : res vexpr :=
    match ops with [a] => Ok (VUn o (fv a)) | _ => Panic end.

  Definition ok (e : res vexpr) : res driver :=
    match e with Ok e => Ok (DAssign e) | Panic => Panic end.

  (** spade-mir/src/codegen/mod.rs:220-754 [forward_expression_code], together
      with the [assign name = expr] wrapper of [statement_code] (lines 1108-1112).
      Only called when [size self_type <> 0] (statement_code, lines 933-941). *)
  Definition forward_code (op : operator) (ops : list nat) : res driver :=
    match op with
    | Add => ok (signed_code OAdd ops)
    | UnsignedAdd => ok (binop_code OAdd ops)
    | Sub => ok (signed_code OSub ops)
    | UnsignedSub => ok (binop_code OSub ops)
    | Mul => ok (signed_code OMul ops)
    | UnsignedMul => ok (binop_code OMul ops)
    | Div => ok (signed_code ODiv ops)
    | UnsignedDiv => ok (binop_code ODiv ops)
    | Mod => ok (signed_code OMod ops)
    | UnsignedMod => ok (binop_code OMod ops)
    | Eq => ok (binop_zst OEq B1 ops)
    | NotEq => ok (binop_zst ONe B0 ops)
    | Gt => ok (signed_zst OGt B0 ops)
    | UnsignedGt => ok (binop_zst OGt B0 ops)
    | Lt => ok (signed_zst OLt B0 ops)
    | UnsignedLt => ok (binop_zst OLt B0 ops)
    | Ge => ok (signed_zst OGe B1 ops)
    | UnsignedGe => ok (binop_zst OGe B1 ops)
    | Le => ok (signed_zst OLe B1 ops)
    | UnsignedLe => ok (binop_zst OLe B1 ops)
    | LeftShift => ok (binop_code OShl ops)
    | RightShift => ok (binop_code OShr ops)
    | ArithmeticRightShift => ok (signed_code OSar ops)
    | LogicalAnd => ok (binop_code OLAnd ops)
    | LogicalOr => ok (binop_code OLOr ops)
    | LogicalXor => ok (binop_code OXor ops)
    | LogicalNot => ok (unop_code ULogNot ops)
    | BitwiseNot => ok (unop_code UBitNot ops)
    | BitwiseAnd => ok (binop_code OAnd ops)
    | BitwiseOr => ok (binop_code OOr ops)
    | BitwiseXor => ok (binop_code OXor ops)
    | USub => ok (unop_code UNeg ops)
    | Not => ok (unop_code ULogNot ops)
    | ReduceAnd => ok (unop_code URedAnd ops)
    | ReduceOr => ok (unop_code URedOr ops)
    | ReduceXor => ok (unop_code URedXor ops)
    | DivPow2 =>                                   (* lines 328-348 *)
        match ops with
        | dividend :: divisor :: _ =>
            Ok (DIf (VBin OEq (fv divisor) (VDec 0))
                  (fv dividend)
                  (VBin OSar
                     (VSigned (VBin OAdd (VSigned (fv dividend))
                        (VSigned (VBin OShl (VDec 1) (VBin OSub (fv divisor) (VDec 1))))))
                     (VSigned (fv divisor))))
        | _ => Panic
        end
    | Truncate =>                                  (* lines 349-355 *)
        match ops with
        | a :: _ => if size self_type =? 0 then Panic
                    else Ok (DAssign (VRange (Fwd a) (size self_type - 1) 0))
        | _ => Panic
        end
    | Concat =>                                    (* lines 356-364 *)
        Ok (DAssign (VConcat (map fv (filter (fun o => nonzero (size (types o))) ops))))
    | SignExtend =>                                (* lines 365-392 *)
        match ops with
        | a :: _ =>
            let operand_size := size (types a) in
            let self_size := size self_type in
            if operand_size <? self_size then
              let extra := self_size - operand_size in
              if operand_size =? 0 then Panic      (* operand_size - 1 underflows *)
              else
                let last := VBitC (Fwd a) (operand_size - 1) in
                if extra =? 1 then Ok (DAssign (VConcat [last; fv a]))
                else Ok (DAssign (VConcat [VRepl extra last; fv a]))
            else Ok (DAssign (fv a))
        | _ => Panic
        end
    | ZeroExtend =>                                (* lines 393-402 *)
        match ops with
        | a :: _ =>
            let operand_size := size (types a) in
            let self_size := size self_type in
            if operand_size <? self_size
            then Ok (DAssign (VConcat [VLit (of_Z (self_size - operand_size) 0); fv a]))
            else Ok (DAssign (fv a))
        | _ => Panic
        end
    | Match =>                                     (* lines 403-438 *)
        if Nat.even (List.length ops) then
          let ps := pairs ops in
          let n := List.length ops / 2 in
          Ok (DCasez (map (fun p => fv (fst p)) ps)
                (map (fun ip => (match_item n (fst ip), fv (snd (snd ip))))
                   (combine (seq 0 n) ps)
                 ++ [(repeat CAny n, VLit (xs (size self_type)))]))
        else Panic
    | Select =>                                    (* lines 439-445 *)
        match ops with
        | [c; a; b] => Ok (DAssign (VCond (fv c) (fv a) (fv b)))
        | _ => Panic
        end
    | IndexTuple idx =>                            (* lines 446-458 *)
        match ops with
        | a :: _ =>
            match tuple_members (types a) with
            | Some ms =>
                match compute_tuple_index idx (map size ms) with
                | Some ti => ok (tuple_index_code (Fwd a) ti)
                | None => Panic
                end
            | None => Panic
            end
        | _ => Panic
        end
    | ConstructArray => Ok (DAssign (VConcat (map fv (rev ops))))   (* lines 459-471 *)
    | IndexArray =>                                (* lines 472-489 *)
        match ops with
        | a :: i :: _ =>
            match types a with
            | TArray _ length =>
                let member_size := size self_type in
                if negb (length =? 1) then
                  if member_size =? 1 then Ok (DAssign (VBit (Fwd a) (fv i)))
                  else Ok (DAssign (VUp (Fwd a)
                             (VBin OMul (fv i) (VDec (Z.of_nat member_size))) member_size))
                else Ok (DAssign (fv a))
            | _ => Panic
            end
        | _ => Panic
        end
    | RangeIndexArray start end_ =>                (* lines 490-511 *)
        match ops with
        | a :: _ =>
            match types a with
            | TArray inner input_length =>
                let member_size := size inner in
                if end_ <? start then Panic        (* BigUint underflow *)
                else
                  let num_elems := end_ - start in
                  if input_length =? 1 then Ok (DAssign (fv a))
                  else if (member_size =? 1) && (num_elems =? 1)
                  then Ok (DAssign (VBitC (Fwd a) start))
                  else if end_ * member_size =? 0 then Panic
                  else Ok (DAssign (VDown (Fwd a) (end_ * member_size - 1) (member_size * num_elems)))
            | _ => Panic
            end
        | _ => Panic
        end
    | RangeIndexBits start end_ =>                 (* lines 515-524 *)
        match ops with
        | a :: _ =>
            if end_ <? start then Panic
            else if end_ - start =? 1 then Ok (DAssign (VBitC (Fwd a) start))
            else Ok (DAssign (VRange (Fwd a) end_ start))
        | _ => Panic
        end
    | ConstructEnum variant =>                     (* lines 611-661 *)
        match self_type with
        | TEnum options =>
            match nth_error options variant with
            | None => Panic
            | Some members =>
                let tag := tag_size (List.length options) in
                let included :=
                  map snd (filter (fun p => nonzero (size (fst p))) (combine members ops)) in
                let variant_member_size := list_sum (map size members) in
                let padding := size self_type - tag - variant_member_size in
                Ok (DAssign (VConcat
                   ((if nonzero tag then [VLit (of_Z tag (Z.of_nat variant))] else [])
                    ++ map fv included
                    ++ (if nonzero padding then [VLit (xs padding)] else []))))
            end
        | _ => Panic
        end
    | IsEnumVariant variant =>                     (* lines 662-689 *)
        match ops with
        | a :: _ =>
            if size (types a) =? 0 then Ok (DAssign (VDec 1))
            else
              match types a with
              | TEnum options =>
                  let tag := tag_size (List.length options) in
                  let total := size (types a) in
                  let tag_end := total - 1 in
                  let tag_start := total - tag in
                  if tag =? 0 then Ok (DAssign (VDec 1))
                  else if total =? 1
                  then Ok (DAssign (VBin OEq (fv a) (VLit (of_Z 1 (Z.of_nat variant)))))
                  else if tag_end =? tag_start
                  then Ok (DAssign (VBin OEq (VBitC (Fwd a) tag_end)
                                        (VLit (of_Z tag (Z.of_nat variant)))))
                  else Ok (DAssign (VBin OEq (VRange (Fwd a) tag_end tag_start)
                                        (VLit (of_Z tag (Z.of_nat variant)))))
              | _ => Panic
              end
        | _ => Panic
        end
    | EnumMember variant member_index =>           (* lines 690-714 *)
        match ops with
        | a :: _ =>
            match types a with
            | TEnum options =>
                match nth_error options variant with
                | None => Panic
                | Some members =>
                    match nth_error members member_index with
                    | None => Panic
                    | Some m =>
                        let tag := tag_size (List.length options) in
                        let full := size (types a) in
                        let member_start := tag + list_sum (map size (firstn member_index members)) in
                        let member_end := member_start + size m in
                        if full <? member_start + 1 then Panic
                        else if full <? member_end then Panic
                        else
                          let upper := full - member_start - 1 in
                          let lower := full - member_end in
                          if (upper =? lower) && (tag =? 0) then Ok (DAssign (fv a))
                          else Ok (DAssign (VRange (Fwd a) upper lower))
                    end
                end
            | _ => Panic
            end
        | _ => Panic
        end
    | ConstructTuple =>                            (* lines 728-736 *)
        Ok (DAssign (VConcat (map fv (filter (fun o => nonzero (size (types o))) ops))))
    | ConstructCopyView => match ops with [a] => Ok (DAssign (fv a)) | _ => Panic end
    end.

End Forward.

(** The value the bound signal gets when the operands carry [vals] (one vector
    per operand, operands named 0,1,2,...); what a user observes at that signal.
    [None] for a panic. *)
Definition operand_env (vals : list bits) : env :=
  fun x => match x with Fwd n => nth n vals [] | Bwd _ => [] end.

(** codegen/mod.rs:938-956: no forward expression is generated for a zero-size
    binding; such a signal has no bits. *)
Definition op_value (self_type : ty) (op_types : list ty) (op : operator)
    (vals : list bits) : option bits :=
  if size self_type =? 0 then Some []
  else
    match forward_code (fun n => nth n op_types (TTuple [])) self_type op
            (seq 0 (List.length op_types)) with
    | Ok d => Some (drive (operand_env vals) (size self_type) d)
    | Panic => None
    end.

(** spade-mir/src/codegen/mod.rs:133-177 [Statement::Constant] for integers: the
    localparam has [size] bits.  [None]: nothing is emitted for size zero. *)
Definition const_int_expr (size : nat) (val : Z) : vexpr :=
  let lit := if 32 <=? size then VLit (of_Z size (Z.abs val)) else VDec (Z.abs val) in
  if (val <? 0)%Z then VUn UNeg lit else lit.
Definition const_int_value (size : nat) (val : Z) : option bits :=
  if size =? 0 then None
  else Some (assign_val (fun _ => []) size (const_int_expr size val)).
