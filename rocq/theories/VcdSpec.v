(** What a waveform shows: numbers, values and their text. *)
From Coq Require Import String List ZArith Bool Arith DecimalString.
From Verif Require Import Bits Verilog CodegenModel CodegenSpec ConcModel VcdModel.
Import ListNotations.
Local Open Scope list_scope.

(** A waveform value, most significant bit first, read as a vector of bits. *)
Definition as_bits (v : list vval) : bits :=
  rev (map (fun x => match x with V0 => B0 | V1 => B1 | VX | VZ => BX end) v).

(** A waveform shows the bits of a signal; a bit with no meaning may be anything. *)
Inductive shows_bit : bit -> vval -> Prop :=
| shows0 : shows_bit B0 V0
| shows1 : shows_bit B1 V1
| shows_any : forall x, shows_bit BX x.
Definition shows (w : bits) (v : list vval) : Prop := Forall2 shows_bit (rev w) v.

(** Waveform files leave out leading digits that the first digit written implies
    (IEEE 1364, table "rules for left-extending vector values"). *)
Inductive abbreviates : list vval -> list vval -> Prop :=
| ab_zero : forall k x r, x = V0 \/ x = V1 -> abbreviates (x :: r) (repeat V0 k ++ x :: r)
| ab_x : forall k r, abbreviates (VX :: r) (repeat VX k ++ VX :: r)
| ab_z : forall k r, abbreviates (VZ :: r) (repeat VZ k ++ VZ :: r).

(** Values of the language. *)
Inductive value :=
| ABool (b : bool)
| ANum (z : Z)
| ATuple (l : list value)
| AStruct (l : list value)
| AArray (l : list value)
| AVariant (k : nat) (l : list value).

(** [carries t v w]: the hardware signal [w] of type [t] has the value [v]: it is
    what the generated code builds from the parts. *)
Inductive carries : cty -> value -> bits -> Prop :=
| c_bool : forall b, carries CBool (ABool b) [bit_of_bool b]
| c_int : forall n z w, represents (TInt n) w z -> carries (CInt n) (ANum z) w
| c_uint : forall n z w, represents (TUInt n) w z -> carries (CUInt n) (ANum z) w
| c_tuple : forall ts vs ws w, carries_all ts vs ws ->
    op_value (to_mir_type (CTuple ts)) (map to_mir_type ts) ConstructTuple ws = Some w ->
    carries (CTuple ts) (ATuple vs) w
| c_struct : forall ms vs ws w, carries_all (map snd ms) vs ws ->
    op_value (to_mir_type (CStruct ms)) (map to_mir_type (map snd ms)) ConstructTuple ws = Some w ->
    carries (CStruct ms) (AStruct vs) w
| c_array : forall t n vs ws w, carries_all (repeat t n) vs ws ->
    op_value (to_mir_type (CArray t n)) (map to_mir_type (repeat t n)) ConstructArray ws = Some w ->
    carries (CArray t n) (AArray vs) w
| c_enum : forall options k name ms vs ws w, nth_error options k = Some (name, ms) ->
    carries_all (map snd ms) vs ws ->
    op_value (to_mir_type (CEnum options)) (map to_mir_type (map snd ms)) (ConstructEnum k) ws = Some w ->
    carries (CEnum options) (AVariant k vs) w
| c_view : forall t v w, carries t v w -> carries (CCopyView t) v w
| c_inout : forall t v w, carries t v w -> carries (CInOut t) v w
with carries_all : list cty -> list value -> list bits -> Prop :=
| c_nil : carries_all [] [] []
| c_cons : forall t v w ts vs ws, carries t v w -> carries_all ts vs ws ->
    carries_all (t :: ts) (v :: vs) (w :: ws).

Fixpoint strip (t : cty) : cty :=
  match t with CCopyView u | CInOut u => strip u | _ => t end.

(** The text of a value.  [order] arranges the elements of an array.  Values without
    bits have no text. *)
Fixpoint show (order : list string -> list string) (v : value) (t : cty) {struct v} : string :=
  let show_all := fix show_all (vs : list value) (ts : list cty) : list string :=
    match vs, ts with
    | v :: vs', t :: ts' => show order v t :: show_all vs' ts'
    | _, _ => []
    end in
  if size (to_mir_type t) =? 0 then ""%string
  else
    match v, strip t with
    | ABool b, CBool => if b then "true" else "false"
    | ANum z, (CInt _ | CUInt _) => NilZero.string_of_int (Z.to_int z)
    | ATuple vs, CTuple ts => "(" ++ String.concat "," (show_all vs ts) ++ ")"
    | AStruct vs, CStruct ms =>
        "{" ++ String.concat ","
          (map (fun p => fst p ++ ":" ++ snd p) (combine (map fst ms) (show_all vs (map snd ms)))) ++ "}"
    | AArray vs, CArray t n => "[" ++ String.concat "," (order (show_all vs (repeat t n))) ++ "]"
    | AVariant k vs, CEnum options =>
        match nth_error options k with
        | Some (name, ms) => name ++ "(" ++ String.concat "," (show_all vs (map snd ms)) ++ ")"
        | None => ""
        end
    | _, _ => ""
    end%string.

(** Types without arrays of two or more elements. *)
Fixpoint short_arrays (t : cty) : bool :=
  match t with
  | CTuple l => forallb short_arrays l
  | CStruct l => forallb (fun p => short_arrays (snd p)) l
  | CArray u n => (n <=? 1) && short_arrays u
  | CEnum l => forallb (fun o => forallb (fun p => short_arrays (snd p)) (snd o)) l
  | CInOut u | CCopyView u => short_arrays u
  | _ => true
  end.
