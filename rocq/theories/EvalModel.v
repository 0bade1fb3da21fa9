(** Compile-time evaluation of initial values (C35).

    spade-mir/src/eval.rs.  The code generator calls it for register initial
    values (spade-mir/src/codegen/mod.rs:1143) and for memory contents
    (codegen/mod.rs:545); the simulation bindings call it for every value a
    test writes (spade-simulation-ext/src/lib.rs:965).

    Value names are numbers.  [None] is a panic. *)
From Coq Require Import List ZArith Bool Arith.
From Verif Require Import Bits Verilog CodegenModel.
Import ListNotations.

(** spade-mir/src/eval.rs:13-29 [Value]. *)
Inductive value :=
| VBit (b : bool)
| VInt (size : nat) (val : Z)
| VUInt (size : nat) (val : Z)
| VConcat_ (inner : list value)
| VUndef (n : nat).

(** Rust's [{:b}] on a non-negative number, most significant digit first:
    no leading zeros, and "0" for zero. *)
Fixpoint pos_digits (p : positive) : bits :=
  match p with
  | xH => [B1]
  | xO p => pos_digits p ++ [B0]
  | xI p => pos_digits p ++ [B1]
  end.
Definition digits (z : Z) : bits :=
  match z with
  | Zpos p => pos_digits p
  | _ => [B0]
  end.

(** spade-mir/src/eval.rs:49-53, 68-74: pad with zeros; the subtraction of a
    longer string from the size is a [BigUint] underflow, which panics. *)
Definition pad0 (size : nat) (s : bits) : option bits :=
  if length s <=? size then Some (repeat B0 (size - length s) ++ s) else None.

(** Join of optional strings, left to right. *)
Fixpoint join (l : list (option bits)) : option bits :=
  match l with
  | [] => Some []
  | None :: _ => None
  | Some s :: l => match join l with Some r => Some (s ++ r) | None => None end
  end.

(** spade-mir/src/eval.rs:45-80 [Value::as_string].  Leftmost character first. *)
Fixpoint as_string (v : value) : option bits :=
  match v with
  | VBit b => Some [bit_of_bool b]
  | VInt size val =>
      if (0 <=? val)%Z then pad0 size (digits val)
      else Some (digits (Z.land val (2 ^ Z.of_nat size - 1)))
  | VUInt size val => pad0 size (digits val)
  | VConcat_ inner => join (map as_string inner)
  | VUndef n => Some (repeat BX n)
  end.

(** spade-mir/src/eval.rs:82-90 [Value::width]. *)
Fixpoint vwidth (v : value) : nat :=
  match v with
  | VBit _ => 1
  | VInt size _ | VUInt size _ => size
  | VConcat_ inner => list_sum (map vwidth inner)
  | VUndef n => n
  end.

(** [BigInt::to_u64().unwrap()]. *)
Definition to_u64 (z : Z) : option Z :=
  if ((0 <=? z) && (z <? 2 ^ 64))%Z then Some z else None.

(** [current << w] on [u64]: bits shifted out are lost.  A shift by 64 or more
    panics with overflow checks ([checked], debug builds); without, the amount
    is taken modulo 64. *)
Definition shl_u64 (checked : bool) (c : Z) (w : nat) : option Z :=
  if w <? 64 then Some ((c * 2 ^ Z.of_nat w) mod 2 ^ 64)%Z
  else if checked then None
  else Some ((c * 2 ^ Z.of_nat (w mod 64)) mod 2 ^ 64)%Z.

(** [a + b] on [u64]. *)
Definition add_u64 (checked : bool) (a b : Z) : option Z :=
  if (a + b <? 2 ^ 64)%Z then Some (a + b)%Z
  else if checked then None else Some ((a + b) mod 2 ^ 64)%Z.

(** spade-mir/src/eval.rs:94-127 [Value::as_u64]. *)
Fixpoint as_u64 (checked : bool) (v : value) : option Z :=
  match v with
  | VBit b => Some (if b then 1 else 0)%Z
  | VInt size val =>
      if (0 <=? val)%Z then to_u64 val
      else to_u64 (Z.land val (2 ^ Z.of_nat size - 1))
  | VUInt _ val => to_u64 val
  | VConcat_ inner =>
      fold_left (fun cur next =>
        match cur with
        | None => None
        | Some c =>
            match shl_u64 checked c (vwidth next), as_u64 checked next with
            | Some s, Some n => add_u64 checked s n
            | _, _ => None
            end
        end) inner (Some 0%Z)
  | VUndef _ => Some 0%Z
  end.

(** spade-mir/src/eval.rs:129-162 [Value::as_u32_chunks], as the number the
    chunks make up.  The members of a concatenation go through [as_u64]. *)
Definition as_u32_chunks (checked : bool) (v : value) : option Z :=
  match v with
  | VBit b => Some (if b then 1 else 0)%Z
  | VInt size val =>
      if (0 <=? val)%Z then Some val
      else Some (Z.land val (2 ^ Z.of_nat size - 1))
  | VUInt _ val => Some val
  | VConcat_ inner =>
      fold_left (fun cur next =>
        match cur with
        | None => None
        | Some c =>
            match as_u64 checked next with
            | Some n => Some (c * 2 ^ Z.of_nat (vwidth next) + n)%Z
            | None => None
            end
        end) inner (Some 0%Z)
  | VUndef _ => Some 0%Z
  end.

(** The statements of an initial value.  [EOther]: registers, asserts, sets,
    error statements and the constants the evaluator does not support
    (strings, high impedance, undefined): all panic. *)
Inductive estmt :=
| EOp (name : nat) (op : operator) (ops : list nat) (t : ty)
| EAlias (name : nat) (op : nat) (t : ty)
| EInt (name : nat) (t : ty) (z : Z)
| EBool (name : nat) (t : ty) (b : bool)
| EOther.

(** [name_vals] and [name_types] (HashMap): the newest entry wins. *)
Definition lookup {A} (m : list (nat * A)) (n : nat) : option A :=
  option_map snd (find (fun p => fst p =? n) m).

Fixpoint lookups {A} (m : list (nat * A)) (ns : list nat) : option (list A) :=
  match ns with
  | [] => Some []
  | n :: ns => match lookup m n, lookups m ns with
               | Some a, Some l => Some (a :: l)
               | _, _ => None
               end
  end.

(** spade-mir/src/eval.rs:32-43 [assume_int], [assume_uint]. *)
Definition assume_int (v : value) : option Z :=
  match v with VInt _ z => Some z | _ => None end.
Definition assume_uint (v : value) : option Z :=
  match v with VUInt _ z => Some z | _ => None end.

(** spade-mir/src/eval.rs:222-345: one operator.  [vals], [tys]: values and types
    of the operands. *)
Definition eval_op (op : operator) (vals : list value) (tys : list ty) (t : ty) : option value :=
  match op, vals with
  | Add, a :: b :: _ =>
      match assume_int a, assume_int b with
      | Some x, Some y => Some (VInt (size t) (x + y)) | _, _ => None end
  | UnsignedAdd, a :: b :: _ =>
      match assume_uint a, assume_uint b with
      | Some x, Some y => Some (VUInt (size t) (x + y)) | _, _ => None end
  | Sub, a :: b :: _ =>
      match assume_int a, assume_int b with
      | Some x, Some y => Some (VInt (size t) (x - y)) | _, _ => None end
  | UnsignedSub, a :: b :: _ =>
      match assume_uint a, assume_uint b with
      | Some x, Some y => if (y <=? x)%Z then Some (VUInt (size t) (x - y)) else None
      | _, _ => None end
  | USub, a :: _ =>
      match assume_int a with Some x => Some (VInt (size t) (- x)) | None => None end
  | ConstructArray, _ => Some (VConcat_ (rev vals))
  | ConstructTuple, _ => Some (VConcat_ vals)
  | ConstructEnum variant, _ =>
      match t with
      | TEnum options =>
          let tag := tag_size (length options) in
          let members := list_sum (map size tys) in
          if tag + members <=? size t then
            let padding := size t - tag - members in
            Some (VConcat_
              ((if length options <=? 1 then [] else [VUInt tag (Z.of_nat variant)])
               ++ vals
               ++ (if padding =? 0 then [] else [VUndef padding])))
          else None
      | _ => None
      end
  | _, _ => None
  end.

(** spade-mir/src/eval.rs:206-373 [eval_statements], the loop body: the new
    maps and the value of the statement. *)
Definition eval_stmt (vs : list (nat * value)) (ts : list (nat * ty)) (s : estmt)
  : option (list (nat * value) * list (nat * ty) * value) :=
  match s with
  | EOp name op ops t =>
      let ts := (name, t) :: ts in
      match lookups vs ops, lookups ts ops with
      | Some vals, Some tys =>
          match eval_op op vals tys t with
          | Some v => Some ((name, v) :: vs, ts, v)
          | None => None
          end
      | _, _ => None
      end
  | EAlias name op t =>
      match lookup vs op with
      | Some v => Some ((name, v) :: vs, (name, t) :: ts, v)
      | None => None
      end
  | EInt name t z => let v := VInt (size t) z in Some ((name, v) :: vs, (name, t) :: ts, v)
  | EBool name t b => let v := VBit b in Some ((name, v) :: vs, (name, t) :: ts, v)
  | EOther => None
  end.

(** The loop; the last value is the result, and an empty list panics. *)
Fixpoint eval_loop (vs : list (nat * value)) (ts : list (nat * ty)) (last : option value)
    (l : list estmt) : option value :=
  match l with
  | [] => last
  | s :: l =>
      match eval_stmt vs ts s with
      | Some (vs, ts, v) => eval_loop vs ts (Some v) l
      | None => None
      end
  end.
Definition eval_statements (l : list estmt) : option value := eval_loop [] [] None l.
