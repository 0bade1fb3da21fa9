(** Which bits of a signal a field has, according to the generated code. *)
From Coq Require Import String List Arith.
From Verif Require Import Bits Verilog CodegenModel CodegenSpec InvModel ConcModel.
Import ListNotations.
Local Open Scope list_scope.

(** [x] is what the generated field accesses [w.f1.f2...] give. *)
Inductive field_bits : cty -> list string -> cty -> bits -> bits -> Prop :=
| fb_here : forall t w, field_bits t [] t w w
| fb_field : forall ms i f u path u' w x y, nth_error ms i = Some (f, u) ->
    op_value (to_mir_type u) [to_mir_type (CStruct ms)] (IndexTuple i) [w] = Some x ->
    field_bits u path u' x y -> field_bits (CStruct ms) (f :: path) u' w y.

(** Bit [k] of the backward part of the field is bit [p] of the whole's. *)
Inductive back_bit : cty -> list string -> cty -> nat -> nat -> Prop :=
| bb_here : forall t k, back_bit t [] t k k
| bb_field : forall ms i f u path u' k j r p, nth_error ms i = Some (f, u) ->
    back_bit u path u' k j ->
    routes (to_mir_type u) [to_mir_type (CStruct ms)] (IndexTuple i) [] = Some r ->
    nth_error r j = Some (Bwd 0, p) -> back_bit (CStruct ms) (f :: path) u' k p.

(** The names along the path are those of fields. *)
Inductive has_path : cty -> list string -> cty -> Prop :=
| hp_here : forall t, has_path t [] t
| hp_field : forall ms f u path u', In (f, u) ms -> has_path u path u' -> has_path (CStruct ms) (f :: path) u'.

(** Structs have distinct field names, at every depth the path can reach. *)
Inductive proper : cty -> Prop :=
| pr_struct : forall ms, NoDup (map fst ms) -> Forall (fun p => proper (snd p)) ms -> proper (CStruct ms)
| pr_other : forall t, (forall ms, t <> CStruct ms) -> proper t.
