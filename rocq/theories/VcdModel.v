(** Translation of waveform values: vcd-translate/src/translation.rs.

    Simplifications: BigInt and BigUint are [Z], usize is [nat].  A panic is [None].
    Printing of a number in decimal (num-bigint's [to_str_radix]) is that of the
    standard library. *)
From Coq Require Import String List ZArith Bool Arith DecimalString.
From Verif Require Import CodegenModel ConcModel.
Import ListNotations.
Local Open Scope list_scope.

(** the [Value] of the vcd crate *)
Inductive vval := V0 | V1 | VX | VZ.
Definition vval_eqb (a b : vval) : bool :=
  match a, b with V0, V0 | V1, V1 | VX, VX | VZ, VZ => true | _, _ => false end.

(** translation.rs:25-30 *)
Inductive maybe_value := Value (z : Z) | Undef | HighImpedance.

(** translation.rs:43-56: also what [write_to] writes, 58-76 *)
Definition decimal (z : Z) : string := NilZero.string_of_int (Z.to_int z).
Definition write_to (m : maybe_value) : string :=
  match m with
  | Value z => decimal z
  | Undef => "UNDEF"
  | HighImpedance => "HIGHIMP"
  end.

(** translation.rs:78-107 [translate_uint]: [result], [accumulated] bits and the
    64-bit word [intermediate] *)
Definition two64 : Z := (2 ^ 64)%Z.
Definition shl1 (i : Z) : Z := ((2 * i) mod two64)%Z.
Fixpoint translate_uint_loop (flip : bool) (result : Z) (accumulated : nat) (intermediate : Z) (value : list vval)
    : maybe_value :=
  match value with
  | [] => Value (result * 2 ^ Z.of_nat accumulated + intermediate)%Z
  | v :: rest =>
      let full := accumulated =? 64 in
      let result := if full then (result * 2 ^ Z.of_nat accumulated + intermediate)%Z else result in
      let intermediate := if full then 0%Z else intermediate in
      let accumulated := if full then 0 else accumulated in
      match v with
      | VX => Undef
      | VZ => HighImpedance
      | _ =>
          let set := if flip then vval_eqb v V0 else vval_eqb v V1 in
          translate_uint_loop flip result (S accumulated)
            (if set then (shl1 intermediate + 1)%Z else shl1 intermediate) rest
      end
  end.
Definition translate_uint (value : list vval) (flip : bool) : maybe_value :=
  translate_uint_loop flip 0%Z 0 0%Z value.

Definition contains (value : list vval) (v : vval) : bool := existsb (vval_eqb v) value.

(** translation.rs:114-128 [translate_signed_int]; [None]: index out of range *)
Definition translate_signed_int (value : list vval) : option maybe_value :=
  if contains value VX then Some Undef
  else if contains value VZ then Some HighImpedance
  else
    match value with
    | [] => None
    | first :: rest =>
        let negative := vval_eqb first V1 in
        Some
          match translate_uint rest negative with
          | Value u => Value (if negative then (- (u + 1))%Z else u)
          | m => m
          end
    end.
(** translation.rs:130-138 *)
Definition translate_unsigned_int (value : list vval) : maybe_value :=
  if contains value VX then Undef
  else if contains value VZ then HighImpedance
  else translate_uint value false.

(** translation.rs:158-164 *)
Definition extend_value (v : vval) : vval :=
  match v with V0 | V1 => V0 | VX => VX | VZ => VZ end.

Definition csize (t : cty) : nat := size (to_mir_type t).

(** [&value[a..b]]; [None]: out of range *)
Definition sub_slice (value : list vval) (a b : nat) : option (list vval) :=
  if (a <=? b) && (b <=? List.length value) then Some (firstn (b - a) (skipn a value)) else None.

Definition append_opt (a : option string) (b : option string) : option string :=
  match a, b with Some x, Some y => Some (x ++ y)%string | _, _ => None end.

(** One step of the loops at 173-187, 196-204, 210-217 and 239-247: the fields one after
    the other from [offset], each with its text before it, separated by commas.
    [field] is the translation of each: its text, size and translation. *)
Definition field := (string * nat * (list vval -> option string))%type.
Fixpoint fields_text (value : list vval) (offset : nat) (fields : list field) : option string :=
  match fields with
  | [] => Some ""%string
  | (label, n, tr) :: rest =>
      let end_ := offset + n in
      let this :=
        match sub_slice value offset end_ with
        | Some s => append_opt (Some label) (tr s)
        | None => None
        end in
      append_opt this
        (append_opt (Some (match rest with [] => "" | _ => "," end)%string) (fields_text value end_ rest))
  end.

(** translation.rs:140-307 [inner_translate_value]: what it appends to the result.
    141-166 is [prepared]: [None] is the overflow of the subtraction or the index of
    an empty slice, [Some None] the early return. *)
Definition prepared (in_value : list vval) (type_size : nat) : option (option (list vval)) :=
  let value_len := List.length in_value in
  if type_size <? value_len then None
  else if type_size =? 0 then Some None
  else
    match in_value with
    | [] => None
    | v :: _ => Some (Some (repeat (extend_value v) (type_size - value_len) ++ in_value))
    end.
Definition bracket (l r : string) (m : option string) : option string :=
  append_opt (Some l) (append_opt m (Some r)).

Fixpoint inner_translate_value (t : cty) (in_value : list vval) : option string :=
  match prepared in_value (csize t) with
  | None => None
  | Some None => Some ""%string
  | Some (Some value) =>
      match t with
      | CError => Some ""%string
      | CTuple inner =>
          bracket "(" ")" (fields_text value 0 (map (fun t => (""%string, csize t, inner_translate_value t)) inner))
      | CStruct members =>
          bracket "{" "}" (fields_text value 0
            (map (fun p => ((fst p ++ ":")%string, csize (snd p), inner_translate_value (snd p))) members))
      | CArray inner n =>
          bracket "[" "]" (fields_text value 0 (repeat (""%string, csize inner, inner_translate_value inner) n))
      | CEnum options =>
          let tag_bits := Nat.log2 (next_power_of_two (List.length options)) in
          match sub_slice value 0 tag_bits with
          | None => None
          | Some tag_value =>
              match translate_uint tag_value false with
              | Undef => Some "UNDEF"%string
              | HighImpedance => Some "HIGHIMP"%string
              | Value tag =>
                  match nth_error
                          (map (fun o => (fst o,
                             map (fun p => (""%string, csize (snd p), inner_translate_value (snd p))) (snd o))) options)
                          (Z.to_nat tag) with
                  | None => Some "?TAG?"%string
                  | Some (name, fields) => append_opt (Some name) (bracket "(" ")" (fields_text value tag_bits fields))
                  end
              end
          end
      | CBool =>
          Some match hd VX value with
               | V0 => "false" | V1 => "true" | VX => "UNDEF" | VZ => "HIGHIMP"
               end%string
      | CInt _ => option_map write_to (translate_signed_int value)
      | CUInt _ => Some (write_to (translate_unsigned_int value))
      | CMemory _ _ => Some "memory"%string
      | CInOut inner => inner_translate_value inner in_value
      | CBackward inner => inner_translate_value inner in_value
      | CCopyView inner => inner_translate_value inner in_value
      end
  end.
(** translation.rs:309-314 *)
Definition translate_value (t : cty) (value : list vval) : option string := inner_translate_value t value.
