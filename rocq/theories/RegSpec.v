(** Signals over time, and what a register is. *)
From Coq Require Import List Bool Arith ZArith.
From Verif Require Import Bits Verilog CodegenModel MirModel.
Import ListNotations.

(** [sg x t]: the vector on signal [x] after step [t]; [ty_of x]: its type. *)
Record waves := Waves { sg : vn -> nat -> bits; ty_of : vn -> ty }.

(** IEEE 1364-2005, 9.7.2: a positive edge is a change from 0 to another value,
    or from another value to 1. *)
Definition posedge (a b : bits) : bool :=
  match nth 0 a BX, nth 0 b BX with
  | B0, (B1 | BX) | BX, B1 => true
  | _, _ => false
  end.
(** [if (x)] takes the first branch when some bit is 1. *)
Definition taken (v : bits) : bool := existsb (fun b => bit_eqb b B1) v.
(** The value after [name <= v] where [name] has [w] bits. *)
Definition assigned (w : nat) (v : bits) : bits := assign_val (fun _ => v) w (VVar (Fwd 0)).

(** What a register of type [t] does: at every rising edge of its clock it takes
    the reset value if reset is active, else the value; otherwise it keeps its
    contents (codegen/mod.rs:1119-1153). *)
Definition is_register (w : waves) (t : ty) (clock : vn) (reset : option (vn * vn)) (value name : vn) : Prop :=
  (forall i, length (sg w name i) = size t) /\
  forall i, sg w name (S i) =
    if posedge (sg w clock i) (sg w clock (S i)) then
      match reset with
      | Some (trig, v) =>
          if taken (sg w trig i) then assigned (size t) (sg w v i) else assigned (size t) (sg w value i)
      | None => assigned (size t) (sg w value i)
      end
    else sg w name i.

(** The equation of a statement; only bindings and registers without initial
    value are constrained. *)
Definition sat (w : waves) (s : stmt) : Prop :=
  match s with
  | SBind n (MOp o) ops t =>
      ty_of w n = t /\
      forall i, op_value t (map (ty_of w) ops) o (map (fun x => sg w x i) ops) = Some (sg w n i)
  | SReg n t c r None v => ty_of w n = t /\ is_register w t c r v n
  | _ => True
  end.

(** The signal carries values of type [t]. *)
Definition carries (w : waves) (x : vn) (t : ty) : Prop :=
  ty_of w x = t /\ forall i, length (sg w x i) = size t.

(** The reset value is made of equal bits, for example all zero. *)
Definition uniform_reset (w : waves) (t : ty) (reset : option (vn * vn)) : Prop :=
  match reset with
  | None => True
  | Some (_, v) => forall i, exists b k, size t <= k /\ sg w v i = repeat b k
  end.
