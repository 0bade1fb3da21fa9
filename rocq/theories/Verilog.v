(** The fragment of Verilog that Spade emits: expression syntax and an
    evaluation function following IEEE 1364-2005 clause 5 (expression bit
    lengths 5.4, signedness 5.5, selects 5.2, operators 5.1).

    Not a model of Spade code: this is the assumed meaning of the target
    language.  The unknown [x] and high-impedance [z] values are merged. *)
From Coq Require Import List ZArith Bool Arith.
From Verif Require Import Bits.
Import ListNotations.

(** A signal is the forward or the backward wire of a MIR value
    (spade-mir/src/codegen/util.rs: [var_name] and [backward_var_name]). *)
Inductive vname := Fwd (n : nat) | Bwd (n : nat).

Inductive unop := UNeg | UBitNot | ULogNot | URedAnd | URedOr | URedXor.
Inductive binop :=
| OAdd | OSub | OMul | ODiv | OMod
| OAnd | OOr | OXor
| OEq | ONe | OLt | OGt | OLe | OGe
| OLAnd | OLOr
| OShl | OShr | OSar.

Inductive vexpr :=
| VVar (x : vname)                              (* declared unsigned signal *)
| VDec (z : Z)                                  (* unsized decimal: 32 bit, signed *)
| VLit (v : bits)                               (* sized based literal, unsigned *)
| VSigned (e : vexpr)                           (* $signed(e) *)
| VUn (o : unop) (e : vexpr)
| VBin (o : binop) (a b : vexpr)
| VCond (c a b : vexpr)                         (* c ? a : b *)
| VConcat (l : list vexpr)                      (* {l0, l1, ...}: l0 is most significant *)
| VRepl (n : nat) (e : vexpr)                   (* {n{e}} *)
| VBit (x : vname) (i : vexpr)                  (* x[i] *)
| VBitC (x : vname) (i : nat)                   (* x[i], i a decimal constant *)
| VRange (x : vname) (hi lo : nat)              (* x[hi:lo] *)
| VUp (x : vname) (i : vexpr) (w : nat)         (* x[i +: w] *)
| VDown (x : vname) (i : nat) (w : nat).        (* x[i -: w] *)

Definition env := vname -> bits.

(** Table 5-22: self-determined bit lengths. *)
Fixpoint width (r : env) (e : vexpr) : nat :=
  match e with
  | VVar x => length (r x)
  | VDec _ => 32
  | VLit v => length v
  | VSigned e => width r e
  | VUn (UNeg | UBitNot) e => width r e
  | VUn _ _ => 1
  | VBin (OAdd | OSub | OMul | ODiv | OMod | OAnd | OOr | OXor) a b =>
      Nat.max (width r a) (width r b)
  | VBin (OEq | ONe | OLt | OGt | OLe | OGe | OLAnd | OLOr) _ _ => 1
  | VBin (OShl | OShr | OSar) a _ => width r a
  | VCond _ a b => Nat.max (width r a) (width r b)
  | VConcat l => list_sum (map (width r) l)
  | VRepl n e => n * width r e
  | VBit _ _ => 1
  | VBitC _ _ => 1
  | VRange _ hi lo => hi + 1 - lo
  | VUp _ _ w => w
  | VDown _ _ w => w
  end.

(** 5.5.1: signedness of an expression. *)
Fixpoint signed (e : vexpr) : bool :=
  match e with
  | VVar _ => false
  | VDec _ => true
  | VLit _ => false
  | VSigned _ => true
  | VUn (UNeg | UBitNot) e => signed e
  | VUn _ _ => false
  | VBin (OAdd | OSub | OMul | ODiv | OMod | OAnd | OOr | OXor) a b => signed a && signed b
  | VBin (OEq | ONe | OLt | OGt | OLe | OGe | OLAnd | OLOr) _ _ => false
  | VBin (OShl | OShr | OSar) a _ => signed a
  | VCond _ a b => signed a && signed b
  | VConcat _ | VRepl _ _ | VBit _ _ | VBitC _ _ | VRange _ _ _ | VUp _ _ _ | VDown _ _ _ => false
  end.

(** ** Operators on vectors *)
Definition num (sg : bool) (v : bits) : option Z := if sg then sval v else uval v.

Definition arith2 (sg : bool) (w : nat) (f : Z -> Z -> option Z) (a b : bits) : bits :=
  match num sg a, num sg b with
  | Some x, Some y => match f x y with Some z => of_Z w z | None => xs w end
  | _, _ => xs w
  end.

Definition bnot (a : bit) : bit := match a with B0 => B1 | B1 => B0 | BX => BX end.
Definition band (a b : bit) : bit :=
  match a, b with B0, _ | _, B0 => B0 | B1, B1 => B1 | _, _ => BX end.
Definition bor (a b : bit) : bit :=
  match a, b with B1, _ | _, B1 => B1 | B0, B0 => B0 | _, _ => BX end.
Definition bxor (a b : bit) : bit :=
  match a, b with
  | BX, _ | _, BX => BX
  | B0, B0 | B1, B1 => B0
  | _, _ => B1
  end.

Fixpoint map2 (f : bit -> bit -> bit) (a b : bits) : bits :=
  match a, b with
  | x :: a', y :: b' => f x y :: map2 f a' b'
  | _, _ => []
  end.

(** Truth value of a vector: 1 if some bit is 1, 0 if all bits are 0. *)
Definition truth (v : bits) : bit := fold_right bor B0 v.

(** Logical equality 5.1.8: a definite mismatch decides, otherwise unknown bits
    make the result unknown. *)
Definition veq (a b : bits) : bit := bnot (truth (map2 bxor a b)).

Definition rel (sg : bool) (f : Z -> Z -> bool) (a b : bits) : bit :=
  match num sg a, num sg b with
  | Some x, Some y => bit_of_bool (f x y)
  | _, _ => BX
  end.

Definition zdiv (x y : Z) : option Z := if Z.eqb y 0 then None else Some (Z.quot x y).
Definition zmod (x y : Z) : option Z := if Z.eqb y 0 then None else Some (Z.rem x y).

(** Shifts by a (possibly huge) amount [n >= 0]. *)
Definition shl (v : bits) (n : Z) : bits :=
  let k := Z.to_nat (Z.min n (Z.of_nat (length v))) in
  firstn (length v) (repeat B0 k ++ v).
Definition shr (fill : bit) (v : bits) (n : Z) : bits :=
  let k := Z.to_nat (Z.min n (Z.of_nat (length v))) in
  skipn k v ++ repeat fill k.

(** 5.1.13: unknown condition merges the branches bit by bit. *)
Definition merge (a b : bit) : bit := if bit_eqb a b then a else BX.

Definition sel (v : bits) (i : option Z) : bit :=
  match i with
  | None => BX
  | Some i => if (i <? Z.of_nat (length v))%Z then getbit v (Z.to_nat i) else BX
  end.

(** [eval r w sg e]: value of [e] in a context that gives it [w] bits and
    signedness [sg] (5.4.1 and 5.5.2).  Callers use [w >= width r e]. *)
Fixpoint eval (r : env) (w : nat) (sg : bool) (e : vexpr) {struct e} : bits :=
  match e with
  | VVar x => resize sg w (r x)
  | VDec z => resize sg w (of_Z 32 z)
  | VLit v => resize sg w v
  | VSigned e => resize sg w (eval r (width r e) (signed e) e)
  | VUn UNeg e =>
      match uval (eval r w sg e) with Some u => of_Z w (- u) | None => xs w end
  | VUn UBitNot e => map bnot (eval r w sg e)
  | VUn o e =>
      let v := eval r (width r e) (signed e) e in
      resize false w
        [match o with
         | ULogNot => bnot (truth v)
         | URedAnd => fold_right band B1 v
         | URedOr => fold_right bor B0 v
         | _ => fold_right bxor B0 v
         end]
  | VBin o a b =>
      match o with
      | OAdd => arith2 sg w (fun x y => Some (x + y)%Z) (eval r w sg a) (eval r w sg b)
      | OSub => arith2 sg w (fun x y => Some (x - y)%Z) (eval r w sg a) (eval r w sg b)
      | OMul => arith2 sg w (fun x y => Some (x * y)%Z) (eval r w sg a) (eval r w sg b)
      | ODiv => arith2 sg w zdiv (eval r w sg a) (eval r w sg b)
      | OMod => arith2 sg w zmod (eval r w sg a) (eval r w sg b)
      | OAnd => map2 band (eval r w sg a) (eval r w sg b)
      | OOr => map2 bor (eval r w sg a) (eval r w sg b)
      | OXor => map2 bxor (eval r w sg a) (eval r w sg b)
      | OEq | ONe | OLt | OGt | OLe | OGe =>
          let wc := Nat.max (width r a) (width r b) in
          let sc := signed a && signed b in
          let va := eval r wc sc a in
          let vb := eval r wc sc b in
          resize false w
            [match o with
             | OEq => veq va vb
             | ONe => bnot (veq va vb)
             | OLt => rel sc Z.ltb va vb
             | OGt => rel sc Z.gtb va vb
             | OLe => rel sc Z.leb va vb
             | _ => rel sc Z.geb va vb
             end]
      | OLAnd | OLOr =>
          let va := truth (eval r (width r a) (signed a) a) in
          let vb := truth (eval r (width r b) (signed b) b) in
          resize false w [match o with OLAnd => band va vb | _ => bor va vb end]
      | OShl | OShr | OSar =>
          let va := eval r w sg a in
          match uval (eval r (width r b) (signed b) b) with
          | None => xs w
          | Some n =>
            match o with
            | OShl => shl va n
            | OShr => shr B0 va n
            | _ => shr (if sg then msb va else B0) va n
            end
          end
      end
  | VCond c a b =>
      let vc := truth (eval r (width r c) (signed c) c) in
      let va := eval r w sg a in
      let vb := eval r w sg b in
      match vc with
      | B1 => va
      | B0 => vb
      | BX => map2 merge va vb
      end
  | VConcat l =>
      resize false w
        (concat (rev (map (fun e => eval r (width r e) (signed e) e) l)))
  | VRepl n e =>
      resize false w (concat (repeat (eval r (width r e) (signed e) e) n))
  | VBit x i =>
      resize false w [sel (r x) (uval (eval r (width r i) (signed i) i))]
  | VBitC x i => resize false w (slice (r x) i 1)
  | VRange x hi lo => resize false w (slice (r x) lo (hi + 1 - lo))
  | VUp x i n =>
      resize false w
        (match uval (eval r (width r i) (signed i) i) with
         | None => xs n
         | Some z =>
             (* out-of-range bits are unknown *)
             map (fun k => sel (r x) (Some (z + Z.of_nat k)%Z)) (seq 0 n)
         end)
  | VDown x i n => resize false w (slice (r x) (i + 1 - n) n)
  end.

(** Value received by an [w]-bit target of [assign target = e] (5.4.1: the
    expression is evaluated in the larger of both widths, then truncated). *)
Definition assign_val (r : env) (w : nat) (e : vexpr) : bits :=
  firstn w (eval r (Nat.max w (width r e)) (signed e) e).

(** casez item digits. *)
Inductive cdigit := C0 | C1 | CAny.
Definition cmatch (c : cdigit) (b : bit) : bool :=
  match c, b with CAny, _ | C0, B0 | C1, B1 => true | _, _ => false end.
(** Items and the case expression are written most significant digit first. *)
Fixpoint citem_match (ds : list cdigit) (v : bits) : bool :=
  match ds, v with
  | [], [] => true
  | d :: ds, b :: v => cmatch d b && citem_match ds v
  | _, _ => false
  end.

(** What drives a signal: a continuous assignment, or one of the two
    [always_comb] shapes Spade emits. *)
Inductive driver :=
| DAssign (e : vexpr)
| DCasez (scrut : list vexpr) (items : list (list cdigit * vexpr))
| DIf (c : vexpr) (t f : vexpr).

Fixpoint run_items (r : env) (w : nat) (v : bits) (items : list (list cdigit * vexpr)) : bits :=
  match items with
  | [] => xs w            (* no item matches: the old value is kept; unknown here *)
  | (ds, e) :: rest =>
      if citem_match ds v then assign_val r w e else run_items r w v rest
  end.

Definition drive (r : env) (w : nat) (d : driver) : bits :=
  match d with
  | DAssign e => assign_val r w e
  | DCasez s items =>
      let v := eval r (width r (VConcat s)) false (VConcat s) in
      run_items r w (rev v) items
  | DIf c t f =>
      match truth (eval r (width r c) (signed c) c) with
      | B1 => assign_val r w t
      | _ => assign_val r w f     (* IEEE 9.4: x or z selects the else branch *)
      end
  end.

(** ** Static legality (5.2.1): selects apply to vectors only and constant
    bounds stay inside the declared range; only declared signals are used.
    [decl x] is the declared width; a one-bit signal is declared as a scalar
    (spade-mir/src/verilog.rs:12-18), a zero-bit one is not declared. *)
Definition vector (decl : vname -> nat) (x : vname) : Prop := 2 <= decl x.
Fixpoint legal (decl : vname -> nat) (e : vexpr) : Prop :=
  match e with
  | VVar x => 1 <= decl x
  | VDec _ => True
  | VLit v => 1 <= length v
  | VSigned e | VUn _ e => legal decl e
  | VBin _ a b => legal decl a /\ legal decl b
  | VCond c a b => legal decl c /\ legal decl a /\ legal decl b
  | VConcat l => l <> [] /\ fold_right and True (map (legal decl) l)
  | VRepl n e => 1 <= n /\ legal decl e
  | VBit x i => vector decl x /\ legal decl i
  | VBitC x i => vector decl x /\ i < decl x
  | VRange x hi lo => vector decl x /\ lo <= hi /\ hi < decl x
  | VUp x i n => vector decl x /\ 1 <= n /\ legal decl i
  | VDown x i n => vector decl x /\ 1 <= n /\ n <= i + 1 /\ i < decl x
  end.
Definition legal_driver (decl : vname -> nat) (d : driver) : Prop :=
  match d with
  | DAssign e => legal decl e
  | DCasez s items => legal decl (VConcat s) /\ fold_right and True (map (fun i => legal decl (snd i)) items)
  | DIf c t f => legal decl c /\ legal decl t /\ legal decl f
  end.
