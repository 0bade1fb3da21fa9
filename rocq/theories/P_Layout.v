(** C01-C03: aggregates read back what was stored.

    [op_value self_type operand_types op values] is the value at the signal
    bound to [op] applied to operands carrying [values], according to the
    emitted Verilog. *)
From Coq Require Import List ZArith Lia Bool Arith.
From Coq Require Strings.String.
From Verif Require Import Bits Verilog CodegenModel CodegenSpec CgLayout.
Import ListNotations.

(** ** C01 *)
Theorem C01_tuple_round_trip :
  forall (tys : list ty) (vals : list bits),
    Forall2 has_width tys vals ->
    exists w, op_value (TTuple tys) tys ConstructTuple vals = Some w
      /\ has_width (TTuple tys) w
      /\ forall i t v, nth_error tys i = Some t -> nth_error vals i = Some v ->
           op_value t [TTuple tys] (IndexTuple i) [w] = Some v.
Proof. exact tuple_round_trip. Qed.
Print Assumptions C01_tuple_round_trip.

Theorem C01_struct_round_trip :
  forall (fields : list (String.string * ty)) (vals : list bits),
    Forall2 (fun f v => has_width (snd f) v) fields vals ->
    exists w, op_value (TStruct fields) (map snd fields) ConstructTuple vals = Some w
      /\ has_width (TStruct fields) w
      /\ forall i f v, nth_error fields i = Some f -> nth_error vals i = Some v ->
           op_value (snd f) [TStruct fields] (IndexTuple i) [w] = Some v.
Proof. exact struct_round_trip. Qed.
Print Assumptions C01_struct_round_trip.

(** A tuple with a zero-width, a one-bit and two wider fields. *)
Example C01_nontrivial :
  let tys := [TUInt 3; TTuple []; TBool; TInt 2] in
  let vals := [[B1; B0; BX]; []; [B1]; [B0; B1]] in
  Forall2 has_width tys vals /\
  op_value (TTuple tys) tys ConstructTuple vals = Some [B0; B1; B1; B1; B0; BX] /\
  op_value TBool [TTuple tys] (IndexTuple 2) [[B0; B1; B1; B1; B0; BX]] = Some [B1].
Proof. repeat split; repeat constructor. Qed.

(** ** C02.  The index operand may have any type and width; only its binary
    value matters.  The bound is the 32-bit size of the literal in the emitted
    index multiplication. *)
Theorem C02_array_round_trip :
  forall (t : ty) (vals : list bits),
    Forall (has_width t) vals ->
    (Z.of_nat (size (TArray t (length vals))) <= 2 ^ 32)%Z ->
    exists w, op_value (TArray t (length vals)) (repeat t (length vals)) ConstructArray vals = Some w
      /\ has_width (TArray t (length vals)) w
      /\ forall i v it iv, nth_error vals i = Some v -> uval iv = Some (Z.of_nat i) ->
           op_value t [TArray t (length vals); it] IndexArray [w; iv] = Some v.
Proof. exact array_round_trip. Qed.
Print Assumptions C02_array_round_trip.

Theorem C02_array_slice :
  forall (t : ty) (vals : list bits) (s e : nat) (w : bits),
    Forall (has_width t) vals -> s < e -> e <= length vals ->
    op_value (TArray t (length vals)) (repeat t (length vals)) ConstructArray vals = Some w ->
    op_value (TArray t (e - s)) [TArray t (length vals)] (RangeIndexArray s e) [w]
    = op_value (TArray t (e - s)) (repeat t (e - s)) ConstructArray (firstn (e - s) (skipn s vals)).
Proof. exact array_slice. Qed.
Print Assumptions C02_array_slice.

Example C02_nontrivial :
  let vals := [[B1; B0]; [B0; B1]; [B1; B1]] in
  Forall (has_width (TUInt 2)) vals /\
  op_value (TArray (TUInt 2) 3) (repeat (TUInt 2) 3) ConstructArray vals
    = Some [B1; B0; B0; B1; B1; B1] /\
  op_value (TUInt 2) [TArray (TUInt 2) 3; TUInt 2] IndexArray [[B1; B0; B0; B1; B1; B1]; [B1; B0]]
    = Some [B0; B1] /\
  op_value (TArray (TUInt 2) 2) [TArray (TUInt 2) 3] (RangeIndexArray 1 3) [[B1; B0; B0; B1; B1; B1]]
    = Some [B0; B1; B1; B1].
Proof. repeat split; repeat constructor. Qed.

(** ** C03.  Partial: the member access of a one-variant enum returns the wrong
    bit for a one-bit member that is followed by others; [member_access_ok]
    excludes exactly that case, and the refutation below exhibits it. *)
Theorem C03_enum_round_trip_partial :
  forall (options : list (list ty)) (v : nat) (tys : list ty) (vals : list bits),
    nth_error options v = Some tys -> Forall2 has_width tys vals ->
    exists w, op_value (TEnum options) tys (ConstructEnum v) vals = Some w
      /\ has_width (TEnum options) w
      /\ (forall v', v' < length options ->
            op_value TBool [TEnum options] (IsEnumVariant v') [w] = Some [bit_of_bool (v' =? v)])
      /\ (forall i t x, nth_error tys i = Some t -> nth_error vals i = Some x ->
            (length options = 1 -> option_map size (nth_error tys i) = Some 1 ->
             list_sum (map size (skipn (S i) tys)) = 0) ->
            op_value t [TEnum options] (EnumMember v i) [w] = Some x).
Proof. exact enum_round_trip. Qed.
Print Assumptions C03_enum_round_trip_partial.

(** enum Foo { A { b: bool, n: uint<2> } }: reading [b] returns bit 0 of [n]. *)
Theorem C03_enum_member_refuted :
  exists options tys vals w t x got,
    nth_error options 0 = Some tys /\ Forall2 has_width tys vals /\
    op_value (TEnum options) tys (ConstructEnum 0) vals = Some w /\
    nth_error tys 0 = Some t /\ nth_error vals 0 = Some x /\
    op_value t [TEnum options] (EnumMember 0 0) [w] = Some got /\ got <> x.
Proof.
  exists [[TBool; TUInt 2]], [TBool; TUInt 2], [[B1]; [B0; B1]], [B0; B1; B1], TBool, [B1], [B0].
  repeat split; repeat constructor. discriminate.
Qed.
Print Assumptions C03_enum_member_refuted.

(** Option<uint<2>> and a three-variant enum. *)
Example C03_nontrivial :
  let opt := [[]; [TUInt 2]] in
  op_value (TEnum opt) [TUInt 2] (ConstructEnum 1) [[B1; B0]] = Some [B1; B0; B1] /\
  op_value (TEnum opt) [] (ConstructEnum 0) [] = Some [BX; BX; B0] /\
  op_value (TUInt 2) [TEnum opt] (EnumMember 1 0) [[B1; B0; B1]] = Some [B1; B0] /\
  op_value TBool [TEnum opt] (IsEnumVariant 1) [[BX; BX; B0]] = Some [B0] /\
  op_value (TEnum [[]; [TBool]; [TBool; TBool]]) [TBool; TBool] (ConstructEnum 2) [[B1]; [B0]]
    = Some [B0; B1; B0; B1].
Proof. repeat split. Qed.
