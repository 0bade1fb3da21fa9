(** Three-valued bit vectors and their numeric readings (library file).

    Bit vectors are lists of bits, LEAST significant bit first: element [i] of
    the list is Verilog bit [i].  [BX] stands for the unknown value; the
    high-impedance value [z] of Verilog is merged with it, since every operator
    in the emitted code treats [z] as [x]. *)
From Coq Require Import List ZArith Lia Bool Arith.
Import ListNotations.

Inductive bit := B0 | B1 | BX.
Notation bits := (list bit).

Definition bit_eqb (a b : bit) : bool :=
  match a, b with B0, B0 | B1, B1 | BX, BX => true | _, _ => false end.

Definition bit_of_bool (b : bool) : bit := if b then B1 else B0.

(** Binary value; [None] when some bit is unknown. *)
Fixpoint uval (v : bits) : option Z :=
  match v with
  | [] => Some 0%Z
  | b :: r =>
    match uval r with
    | None => None
    | Some u =>
      match b with
      | B0 => Some (2 * u)%Z
      | B1 => Some (2 * u + 1)%Z
      | BX => None
      end
    end
  end.

Definition msb (v : bits) : bit := last v B0.

(** Two's complement value. *)
Definition sval (v : bits) : option Z :=
  match uval v with
  | None => None
  | Some u => match msb v with
              | B1 => Some (u - 2 ^ Z.of_nat (length v))%Z
              | _ => Some u
              end
  end.

(** The [w] low bits of a (possibly negative) integer in two's complement. *)
Fixpoint of_Z (w : nat) (z : Z) : bits :=
  match w with
  | O => []
  | S w' => bit_of_bool (Z.odd z) :: of_Z w' (Z.div2 z)
  end.

Definition xs (w : nat) : bits := repeat BX w.

(** Extension / truncation to [w] bits; [sg] selects sign extension. *)
Definition resize (sg : bool) (w : nat) (v : bits) : bits :=
  firstn w (v ++ repeat (if sg then msb v else B0) (w - length v)).

(** Verilog bit [i] of [v]; out-of-range reads are unknown. *)
Definition getbit (v : bits) (i : nat) : bit := nth i v BX.

(** Bits [lo .. lo+n-1] of [v]. *)
Definition slice (v : bits) (lo n : nat) : bits :=
  map (fun k => getbit v (lo + k)) (seq 0 n).

Definition known (v : bits) : Prop := ~ In BX v.

Arguments resize : simpl never.
Arguments slice : simpl never.



