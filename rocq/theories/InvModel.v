(** Backward ("inv") wires: spade-mir/src/codegen/mod.rs:756-921
    [backward_expression_code] and the [assign b = back_name] wrapper in
    [statement_code] (lines 1103-1107).  Every signal named [Bwd n] is the
    backward wire of value [n]; index operands use the forward wire. *)
From Coq Require Import List ZArith Bool Arith.
From Verif Require Import Bits Verilog CodegenModel.
Import ListNotations.

Definition bv (n : nat) : vexpr := VVar (Bwd n).

Section Backward.
  Variable types : nat -> ty.
  Variable self_type : ty.

  (** The expression the bound value's backward wire is assigned to.  All
      operators not listed panic (lines 772-820). *)
  Definition backward_code (op : operator) (ops : list nat) : res vexpr :=
    match op with
    | ConstructArray => Ok (VConcat (map bv (rev ops)))          (* lines 821-833 *)
    | IndexArray =>                                              (* lines 834-851 *)
        match ops with
        | a :: i :: _ =>
            match types a with
            | TArray _ length =>
                let member_size := backward_size self_type in
                if negb (length =? 1) then
                  if member_size =? 1 then Ok (VBit (Bwd a) (fv i))
                  else Ok (VUp (Bwd a) (VBin OMul (fv i) (VDec (Z.of_nat member_size))) member_size)
                else Ok (bv a)
            | _ => Panic
            end
        | _ => Panic
        end
    | RangeIndexArray start end_ =>                              (* lines 852-873 *)
        match ops with
        | a :: _ =>
            match types a with
            | TArray inner input_length =>
                let member_size := size inner in                 (* not backward_size *)
                if end_ <? start then Panic
                else
                  let elems := end_ - start in
                  if input_length =? 1 then Ok (bv a)
                  else if (member_size =? 1) && (elems =? 1) then Ok (VBitC (Bwd a) start)
                  else Ok (VUp (Bwd a)
                         (VBin OMul (VDec (Z.of_nat start)) (VDec (Z.of_nat member_size)))
                         (member_size * elems))
            | _ => Panic
            end
        | _ => Panic
        end
    | ConstructTuple =>                                          (* lines 874-880 *)
        Ok (VConcat (map bv (filter (fun o => nonzero (backward_size (types o))) ops)))
    | IndexTuple idx =>                                          (* lines 881-902 *)
        match ops with
        | a :: _ =>
            match tuple_members (types a) with
            | Some ms =>
                match compute_tuple_index idx (map backward_size ms) with
                | Some ti => tuple_index_code (Bwd a) ti
                | None => Panic
                end
            | None => Panic
            end
        | _ => Panic
        end
    | _ => Panic
    end.
End Backward.

(** Meaning of an assignment target (IEEE 1364 6.1.2): the individual wire bits
    it denotes, least significant first.  [None]: not a legal target, or an
    index that is unknown or outside the wire. *)
Definition in_wire (decl : vname -> nat) (x : vname) (l : list nat) : option (list (vname * nat)) :=
  if forallb (fun i => i <? decl x) l then Some (map (fun i => (x, i)) l) else None.

Fixpoint targets (decl : vname -> nat) (r : env) (e : vexpr) : option (list (vname * nat)) :=
  match e with
  | VVar x => in_wire decl x (seq 0 (decl x))
  | VConcat l =>
      (fix go (l : list vexpr) : option (list (vname * nat)) :=
         match l with
         | [] => Some []
         | e :: l => match targets decl r e, go l with
                     | Some a, Some b => Some (b ++ a)
                     | _, _ => None
                     end
         end) l
  | VBitC x i => in_wire decl x [i]
  | VBit x i =>
      match uval (eval r (width r i) (signed i) i) with
      | Some z => in_wire decl x [Z.to_nat z]
      | None => None
      end
  | VRange x hi lo => in_wire decl x (seq lo (hi + 1 - lo))
  | VUp x i n =>
      match uval (eval r (width r i) (signed i) i) with
      | Some z => in_wire decl x (seq (Z.to_nat z) n)
      | None => None
      end
  | _ => None
  end.

(** Where each bit of the backward wire of the bound value is routed. *)
Definition routes (self_type : ty) (op_types : list ty) (op : operator) (vals : list bits)
  : option (list (vname * nat)) :=
  if backward_size self_type =? 0 then Some []
  else
    match backward_code (fun n => nth n op_types (TTuple [])) self_type op (seq 0 (length op_types)) with
    | Ok e =>
        targets (fun x => match x with
                          | Fwd n => size (nth n op_types (TTuple []))
                          | Bwd n => backward_size (nth n op_types (TTuple []))
                          end) (operand_env vals) e
    | Panic => None
    end.
