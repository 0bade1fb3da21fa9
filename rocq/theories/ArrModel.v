(** The array, number and option methods of the standard library:
    spade-compiler/stdlib/array.spade, conv.spade, num.spade, ops.spade, option.spade.

    A value is its bits, the lowest first; [w] is the width of an element and [N] the
    number of elements, which the Spade code gets as type parameters.  The functions
    passed to the methods are functions on bits.  The recursion of [gen if] is on [N];
    [fuel] stands for the monomorphiser's work and is given as [N] (or more). *)
From Coq Require Import List Bool ZArith Arith.
Import ListNotations.

Notation bits := (list bool).

(** spade-mir codegen: ConstructTuple puts the first field in the highest bits,
    IndexTuple takes it from there *)
Definition tuple2 (a b : bits) : bits := b ++ a.
Definition untuple2 (wb : nat) (x : bits) : bits * bits := (skipn wb x, firstn wb x).
(** ConstructArray puts element 0 in the lowest bits; IndexArray, RangeIndexArray *)
Definition array (es : list bits) : bits := concat es.
Definition index (w : nat) (x : bits) (i : nat) : bits := firstn w (skipn (i * w) x).
Definition range (w : nat) (x : bits) (a b : nat) : bits := firstn ((b - a) * w) (skipn (a * w) x).
(** core::conv::transmute keeps the bits *)
Definition transmute (x : bits) : bits := x.

(** array.spade:155-157 *)
Definition concat_ (self other : bits) : bits := transmute (tuple2 other self).
(** array.spade:334-340: [(r, l) = transmute(self)], [l] has [K] elements *)
Definition split_at (w K : nat) (self : bits) : bits * bits :=
  let '(r, l) := untuple2 (K * w) (transmute self) in (l, r).

(** array.spade:15-21 *)
Fixpoint unfold_ (N : nat) (seed : bits) (f : bits -> bits) : bits :=
  match N with O => array [] | S N' => concat_ (array [seed]) (unfold_ N' (f seed) f) end.

(** array.spade:248-257; [w], [v]: widths of the elements of the input and the result *)
Fixpoint map_ (fuel w N : nat) (f : bits -> bits) (self : bits) : bits :=
  match fuel with
  | O => array []
  | S fuel =>
      if N =? 0 then array []
      else if N =? 1 then array [f (index w self 0)]
      else let '(l, r) := split_at w (N / 2) self in concat_ (map_ fuel w (N / 2) f l) (map_ fuel w (N - N / 2) f r)
  end.

(** array.spade:359-374 *)
Fixpoint zip_ (fuel w v N : nat) (self other : bits) : bits :=
  match fuel with
  | O => array []
  | S fuel =>
      if N =? 0 then array []
      else if N =? 1 then array [tuple2 (index w self 0) (index v other 0)]
      else
        let '(ll, lr) := split_at w (N / 2) self in
        let '(rl, rr) := split_at v (N / 2) other in
        concat_ (zip_ fuel w v (N / 2) ll rl) (zip_ fuel w v (N - N / 2) lr rr)
  end.

(** array.spade:489-501; [w], [v]: widths of the halves of each pair *)
Fixpoint unzip_ (fuel w v N : nat) (self : bits) : bits * bits :=
  match fuel with
  | O => (array [], array [])
  | S fuel =>
      if N =? 0 then (array [], array [])
      else if N =? 1 then
        let '(a, b) := untuple2 v (index (w + v) self 0) in (array [a], array [b])
      else
        let '(l, r) := split_at (w + v) (N / 2) self in
        let '(ll, lr) := unzip_ fuel w v (N / 2) l in
        let '(rl, rr) := unzip_ fuel w v (N - N / 2) r in
        (concat_ ll rl, concat_ lr rr)
  end.

(** array.spade:169-176 *)
Fixpoint reversed_ (fuel w N : nat) (self : bits) : bits :=
  match fuel with
  | O => self
  | S fuel =>
      if N <? 2 then self
      else let '(l, r) := split_at w (N / 2) self in concat_ (reversed_ fuel w (N - N / 2) r) (reversed_ fuel w (N / 2) l)
  end.

(** array.spade:196-203 *)
Fixpoint fold_ {B : Type} (N w : nat) (self : bits) (init : B) (f : B -> bits -> B) : B :=
  match N with
  | O => init
  | S N' => let v := f init (index w self 0) in fold_ N' w (range w self 1 N) v f
  end.
(** array.spade:432-434 *)
Definition reduce_ (N w : nat) (self : bits) (f : bits -> bits -> bits) : bits :=
  fold_ (N - 1) w (range w self 1 N) (index w self 0) f.

(** array.spade:552-561; [w]: width of an element of the inner arrays, which have [M] *)
Fixpoint flatten_ (fuel w M N : nat) (self : bits) : bits :=
  match fuel with
  | O => array []
  | S fuel =>
      if N =? 0 then array []
      else if N =? 1 then index (M * w) self 0
      else let '(l, r) := split_at (M * w) (N / 2) self in concat_ (flatten_ fuel w M (N / 2) l) (flatten_ fuel w M (N - N / 2) r)
  end.
(** array.spade:233-237 *)
Definition interleave_ (w N : nat) (self other : bits) : bits :=
  flatten_ N w 2 N
    (map_ N (w + w) N (fun p => let '(l, r) := untuple2 w p in array [l; r]) (zip_ N w w N self other)).

(** array.spade:131-141 *)
Fixpoint chunks_ (fuel w C N : nat) (self : bits) : bits :=
  match fuel with
  | O => array []
  | S fuel =>
      if N =? 0 then array []
      else let '(l, r) := split_at w C self in concat_ (array [l]) (chunks_ fuel w C (N - C) r)
  end.
(** array.spade:303-312 *)
Fixpoint sliding_window_ (fuel w M N : nat) (self : bits) : bits :=
  match fuel with
  | O => array [self]
  | S fuel =>
      if N =? M then array [self]
      else concat_ (array [range w self 0 M]) (sliding_window_ fuel w M (N - 1) (range w self 1 N))
  end.

(** array.spade:271-273, 288-290 *)
Definition push_back (self item : bits) : bits := concat_ self (array [item]).
Definition push_front (self item : bits) : bits := concat_ (array [item]) self.
(** array.spade:399-401, 411-413 *)
Definition first_ (w : nat) (self : bits) : bits := index w self 0.
Definition last_ (w N : nat) (self : bits) : bits := index w (range w self (N - 1) N) 0.
(** array.spade:449-451, 466-468 *)
Definition shift_back (w N : nat) (self item : bits) : bits := push_back (range w self 1 N) item.
Definition shift_front (w N : nat) (self item : bits) : bits := range w (push_front self item) 0 N.

(** array.spade:583-613: the Verilog reduction operators *)
Definition reduce_and (x : bits) : bool := forallb (fun b => b) x.
Definition reduce_or (x : bits) : bool := existsb (fun b => b) x.
Definition reduce_xor (x : bits) : bool := fold_right xorb false x.
(** array.spade:83-89, 104-110 *)
Definition all_ (w N : nat) (f : bits -> bool) (self : bits) : bool :=
  if N =? 0 then true else reduce_and (map_ N w N (fun x => [f x]) self).
Definition any_ (w N : nat) (f : bits -> bool) (self : bits) : bool :=
  if N =? 0 then false else reduce_or (map_ N w N (fun x => [f x]) self).

(** ** Numbers *)
(** The value of an unsigned and of a signed number of the given bits, the lowest
    first; as_bits, as_uint, as_int (conv.spade) are [transmute] *)
Fixpoint uval (x : bits) : Z := match x with [] => 0 | b :: x => Z.b2z b + 2 * uval x end%Z.
Definition ival (x : bits) : Z := (if List.last x false then uval x - 2 ^ Z.of_nat (length x) else uval x)%Z.
(** The number of [N] bits that is [z] modulo [2 ^ N]: what the Verilog operators give *)
Fixpoint of_Z (N : nat) (z : Z) : bits :=
  match N with O => [] | S N => Z.odd z :: of_Z N (Z.div2 z) end.

(** num.spade:100-102; [-.] wraps *)
Definition abs (N : nat) (x : bits) : bits := if (ival x <? 0)%Z then transmute (of_Z N (- ival x)) else transmute x.
(** num.spade:132-134, 144-146 int, 208-210, 220-222 uint, ops.spade:72-74 *)
Definition imax (x y : bits) : bits := if (ival x <? ival y)%Z then y else x.
Definition imin (x y : bits) : bits := if (ival x <? ival y)%Z then x else y.
Definition umax (x y : bits) : bits := if (uval x <? uval y)%Z then y else x.
Definition umin (x y : bits) : bits := if (uval x <? uval y)%Z then x else y.
Definition order (x y : bits) : bits * bits := if (ival x <? ival y)%Z then (x, y) else (y, x).
(** num.spade:267-286, 312-325 *)
Definition msb (N : nat) (x : bits) : bits := last_ 1 N (transmute x).
Definition lsb (x : bits) : bits := first_ 1 (transmute x).
(** num.spade:196-198 *)
Definition uinterleave (N : nat) (x y : bits) : bits := transmute (interleave_ 1 N (transmute x) (transmute y)).
(** conv.spade:491-493: [zext] *)
Definition to_int (x : bits) : bits := x ++ [false].
(** conv.spade:528-533, 543-545, 556-564 *)
Definition to_le_bytes (N : nat) (x : bits) : bits :=
  map_ (N / 8) 8 (N / 8) transmute (chunks_ N 1 8 N (transmute x)).
Definition to_be_bytes (N : nat) (x : bits) : bits := reversed_ (N / 8) 8 (N / 8) (to_le_bytes N x).
Definition to_german_endian_bytes (N : nat) (x : bits) : bits :=
  if N <=? 16 then to_le_bytes N x
  else
    let n := to_be_bytes N x in
    concat_ (range 8 n 0 (N / 8 - 2)) (reversed_ 2 8 2 (range 8 n (N / 8 - 2) (N / 8))).

(** ** Streams of options: what happens at each edge of the clock *)
Section Stream.
Variable w N : nat.
(** option.spade:195-211; gives the output of the cycle and the register after it.
    [None] and [Some] are kept as such: their encoding is that of C02. *)
Definition window_cycle (default : bits) (values : bits) (rst : bool) (self : option bits) : option bits * bits :=
  let next := match self with Some v => shift_front w N values v | None => values end in
  (match self with Some _ => Some next | None => None end, if rst then array (repeat default N) else next).
(** option.spade:225-248; the registers are [count], a number of [uint::bits_for(N)]
    bits, and [values], which has no reset *)
Definition bits_for (n : nat) : nat := match n with O => 0 | _ => S (Nat.log2 n) end.
Definition chunks_cycle (st : nat * bits) (rst : bool) (self : option bits) : option bits * (nat * bits) :=
  let '(count, values) := st in
  let next_count :=
    match self with
    | Some _ => if count + 1 =? N then 0 else (count + 1) mod 2 ^ bits_for N
    | None => count
    end in
  let next_values := match self with Some new => concat_ (range w values 1 N) (array [new]) | None => values end in
  (match self with Some _ => if count + 1 =? N then Some next_values else None | None => None end,
   (if rst then 0 else next_count, next_values)).
End Stream.
