(** C04-C08: numbers.  [represents t v z]: the vector [v] is the encoding of the
    integer [z] at integer type [t] (CodegenSpec.v). *)
From Coq Require Import List ZArith Lia Bool Arith.
From Verif Require Import Bits BitsFacts Verilog CodegenModel CodegenSpec CgLayout CgArith CgShift.
Import ListNotations.
Local Open Scope Z_scope.

(** ** C04: +, - and * at the widths type inference gives them
    (spade-typeinference/src/lib.rs: N+1 for + and -, N+M for star). *)
Theorem C04_add_exact : forall n a b x y, (0 < n)%nat ->
  represents (TInt n) a x -> represents (TInt n) b y ->
  exists r, op_value (TInt (n + 1)) [TInt n; TInt n] Add [a; b] = Some r
    /\ represents (TInt (n + 1)) r (x + y).
Proof. exact add_exact. Qed.
Print Assumptions C04_add_exact.
Theorem C04_sub_exact : forall n a b x y, (0 < n)%nat ->
  represents (TInt n) a x -> represents (TInt n) b y ->
  exists r, op_value (TInt (n + 1)) [TInt n; TInt n] Sub [a; b] = Some r
    /\ represents (TInt (n + 1)) r (x - y).
Proof. exact sub_exact. Qed.
Print Assumptions C04_sub_exact.
Theorem C04_mul_exact : forall n m a b x y, (0 < n)%nat -> (0 < m)%nat ->
  represents (TInt n) a x -> represents (TInt m) b y ->
  exists r, op_value (TInt (n + m)) [TInt n; TInt m] Mul [a; b] = Some r
    /\ represents (TInt (n + m)) r (x * y).
Proof. exact mul_exact. Qed.
Print Assumptions C04_mul_exact.
Theorem C04_uadd_exact : forall n a b x y,
  represents (TUInt n) a x -> represents (TUInt n) b y ->
  exists r, op_value (TUInt (n + 1)) [TUInt n; TUInt n] UnsignedAdd [a; b] = Some r
    /\ represents (TUInt (n + 1)) r (x + y).
Proof. exact uadd_exact. Qed.
Print Assumptions C04_uadd_exact.
Theorem C04_umul_exact : forall n m a b x y, (0 < n + m)%nat ->
  represents (TUInt n) a x -> represents (TUInt m) b y ->
  exists r, op_value (TUInt (n + m)) [TUInt n; TUInt m] UnsignedMul [a; b] = Some r
    /\ represents (TUInt (n + m)) r (x * y).
Proof. exact umul_exact. Qed.
Print Assumptions C04_umul_exact.
(** Unsigned subtraction: exact when non-negative, always correct modulo 2^(n+1). *)
Theorem C04_usub_exact : forall n a b x y,
  represents (TUInt n) a x -> represents (TUInt n) b y -> y <= x ->
  exists r, op_value (TUInt (n + 1)) [TUInt n; TUInt n] UnsignedSub [a; b] = Some r
    /\ represents (TUInt (n + 1)) r (x - y).
Proof. exact usub_exact. Qed.
Print Assumptions C04_usub_exact.
Theorem C04_usub_modular : forall n a b x y,
  represents (TUInt n) a x -> represents (TUInt n) b y ->
  exists r, op_value (TUInt (n + 1)) [TUInt n; TUInt n] UnsignedSub [a; b] = Some r
    /\ represents (TUInt (n + 1)) r ((x - y) mod 2 ^ Z.of_nat (n + 1)).
Proof. exact usub_value. Qed.
Print Assumptions C04_usub_modular.
(** Unary minus keeps the width: exact except for the most negative number. *)
Theorem C04_neg_exact : forall n a x, (0 < n)%nat ->
  represents (TInt n) a x -> x <> - 2 ^ Z.of_nat (n - 1) ->
  exists r, op_value (TInt n) [TInt n] USub [a] = Some r /\ represents (TInt n) r (- x).
Proof. exact neg_exact. Qed.
Print Assumptions C04_neg_exact.

(** -8 + -8 = -16 at int<4>; 15 * 15 = 225 at uint<4>; -8 * -8 = 64. *)
Example C04_nontrivial :
  represents (TInt 4) [B0; B0; B0; B1] (-8) /\
  op_value (TInt 5) [TInt 4; TInt 4] Add [[B0; B0; B0; B1]; [B0; B0; B0; B1]] = Some [B0; B0; B0; B0; B1] /\
  represents (TInt 5) [B0; B0; B0; B0; B1] (-16) /\
  op_value (TUInt 8) [TUInt 4; TUInt 4] UnsignedMul [[B1; B1; B1; B1]; [B1; B1; B1; B1]] = Some (of_Z 8 225) /\
  op_value (TInt 8) [TInt 4; TInt 4] Mul [[B0; B0; B0; B1]; [B0; B0; B0; B1]] = Some (of_Z 8 64).
Proof. repeat split. Qed.

(** ** C05 *)
(** The relation each comparison operator stands for. *)
Definition C05_signed_relation (op : operator) : option (Z -> Z -> bool) :=
  match op with
  | Eq => Some Z.eqb | NotEq => Some (fun x y => negb (Z.eqb x y))
  | Lt => Some Z.ltb | Le => Some Z.leb | Gt => Some Z.gtb | Ge => Some Z.geb
  | _ => None
  end.
Definition C05_unsigned_relation (op : operator) : option (Z -> Z -> bool) :=
  match op with
  | Eq => Some Z.eqb | NotEq => Some (fun x y => negb (Z.eqb x y))
  | UnsignedLt => Some Z.ltb | UnsignedLe => Some Z.leb
  | UnsignedGt => Some Z.gtb | UnsignedGe => Some Z.geb
  | _ => None
  end.
Theorem C05_compare_signed : forall op f n a b x y,
  C05_signed_relation op = Some f -> represents (TInt n) a x -> represents (TInt n) b y ->
  exists r, op_value TBool [TInt n; TInt n] op [a; b] = Some r /\ is_bool r (f x y).
Proof.
  intros op f n a b x y Hf Ha Hb. eexists. split; [|reflexivity].
  apply compare_signed; [destruct op; try discriminate; exact Hf|assumption|assumption].
Qed.
Print Assumptions C05_compare_signed.
Theorem C05_compare_unsigned : forall op f n a b x y,
  C05_unsigned_relation op = Some f -> represents (TUInt n) a x -> represents (TUInt n) b y ->
  exists r, op_value TBool [TUInt n; TUInt n] op [a; b] = Some r /\ is_bool r (f x y).
Proof.
  intros op f n a b x y Hf Ha Hb. eexists. split; [|reflexivity].
  apply compare_unsigned; [destruct op; try discriminate; exact Hf|assumption|assumption].
Qed.
Print Assumptions C05_compare_unsigned.
Example C05_nontrivial :
  op_value TBool [TInt 3; TInt 3] Lt [of_Z 3 (-4); of_Z 3 3] = Some [B1] /\
  op_value TBool [TUInt 3; TUInt 3] UnsignedLt [of_Z 3 4; of_Z 3 3] = Some [B0] /\
  represents (TUInt 0) [] 0 /\ op_value TBool [TUInt 0; TUInt 0] UnsignedGe [[]; []] = Some [B1].
Proof. repeat split. Qed.

(** ** C06 *)
Theorem C06_zext_exact : forall n m a u, (0 < n)%nat -> (n <= m)%nat -> represents (TUInt n) a u ->
  exists r, op_value (TUInt m) [TUInt n] ZeroExtend [a] = Some r /\ represents (TUInt m) r u.
Proof. exact zext_exact. Qed.
Print Assumptions C06_zext_exact.
Theorem C06_sext_exact : forall n m a s, (0 < n)%nat -> (n <= m)%nat -> represents (TInt n) a s ->
  exists r, op_value (TInt m) [TInt n] SignExtend [a] = Some r /\ represents (TInt m) r s.
Proof. exact sext_exact. Qed.
Print Assumptions C06_sext_exact.
Theorem C06_trunc_unsigned : forall n m a u, (0 < m)%nat -> (m <= n)%nat -> represents (TUInt n) a u ->
  exists r, op_value (TUInt m) [TUInt n] Truncate [a] = Some r
    /\ represents (TUInt m) r (u mod 2 ^ Z.of_nat m).
Proof. exact utrunc_exact. Qed.
Print Assumptions C06_trunc_unsigned.
Theorem C06_trunc_signed : forall n m a s, (0 < m)%nat -> (m <= n)%nat -> represents (TInt n) a s ->
  exists r z, op_value (TInt m) [TInt n] Truncate [a] = Some r /\ represents (TInt m) r z
    /\ z mod 2 ^ Z.of_nat m = s mod 2 ^ Z.of_nat m.
Proof. exact strunc_exact. Qed.
Print Assumptions C06_trunc_signed.
(** Vectors are least significant bit first: the left operand is the high part. *)
Theorem C06_concat : forall ta tb a b t,
  has_width ta a -> has_width tb b -> size t = (size ta + size tb)%nat ->
  op_value t [ta; tb] Concat [a; b] = Some (b ++ a).
Proof. exact concat_value. Qed.
Print Assumptions C06_concat.
(** Division truncates towards zero, the remainder takes the dividend's sign. *)
Theorem C06_div : forall n a b x y, (0 < n)%nat ->
  represents (TInt n) a x -> represents (TInt n) b y -> 0 < y ->
  exists r, op_value (TInt n) [TInt n; TInt n] Div [a; b] = Some r /\ represents (TInt n) r (Z.quot x y).
Proof. exact div_exact. Qed.
Print Assumptions C06_div.
Theorem C06_mod : forall n a b x y, (0 < n)%nat ->
  represents (TInt n) a x -> represents (TInt n) b y -> 0 < y ->
  exists r, op_value (TInt n) [TInt n; TInt n] Mod [a; b] = Some r /\ represents (TInt n) r (Z.rem x y).
Proof. exact mod_exact. Qed.
Print Assumptions C06_mod.
Theorem C06_udiv : forall n a b x y, (0 < n)%nat ->
  represents (TUInt n) a x -> represents (TUInt n) b y -> 0 < y ->
  exists r, op_value (TUInt n) [TUInt n; TUInt n] UnsignedDiv [a; b] = Some r /\ represents (TUInt n) r (x / y).
Proof. exact udiv_exact. Qed.
Print Assumptions C06_udiv.
Theorem C06_umod : forall n a b x y, (0 < n)%nat ->
  represents (TUInt n) a x -> represents (TUInt n) b y -> 0 < y ->
  exists r, op_value (TUInt n) [TUInt n; TUInt n] UnsignedMod [a; b] = Some r /\ represents (TUInt n) r (x mod y).
Proof. exact umod_exact. Qed.
Print Assumptions C06_umod.
(** Shifts by an amount held in any operand: left drops the high bits, right is
    floor division (sign-preserving for the arithmetic shift). *)
Theorem C06_shl : forall n a x b k t0, (0 < n)%nat -> represents (TUInt n) a x -> uval b = Some k ->
  op_value (TUInt n) [TUInt n; t0] LeftShift [a; b] = Some (of_Z n (x * 2 ^ k)).
Proof. exact lshift_value. Qed.
Print Assumptions C06_shl.
Theorem C06_shr : forall n a x b k t0, (0 < n)%nat -> represents (TUInt n) a x -> uval b = Some k ->
  exists r, op_value (TUInt n) [TUInt n; t0] RightShift [a; b] = Some r /\ represents (TUInt n) r (x / 2 ^ k).
Proof. exact ushr_exact. Qed.
Print Assumptions C06_shr.
Theorem C06_sar : forall n a x b k t0, (0 < n)%nat -> represents (TInt n) a x -> uval b = Some k ->
  exists r, op_value (TInt n) [TInt n; t0] ArithmeticRightShift [a; b] = Some r /\ represents (TInt n) r (x / 2 ^ k).
Proof. exact sar_exact. Qed.
Print Assumptions C06_sar.
Example C06_nontrivial :
  op_value (TInt 6) [TInt 3] SignExtend [of_Z 3 (-3)] = Some (of_Z 6 (-3)) /\
  op_value (TUInt 2) [TUInt 4] Truncate [of_Z 4 11] = Some (of_Z 2 3) /\
  op_value (TInt 5) [TInt 5; TInt 5] Div [of_Z 5 (-7); of_Z 5 4] = Some (of_Z 5 (-1)) /\
  op_value (TInt 5) [TInt 5; TInt 5] Mod [of_Z 5 (-7); of_Z 5 4] = Some (of_Z 5 (-3)) /\
  op_value (TInt 5) [TInt 5; TUInt 3] ArithmeticRightShift [of_Z 5 (-7); of_Z 3 2] = Some (of_Z 5 (-2)) /\
  op_value (TUInt 5) [TUInt 2; TUInt 3] Concat [of_Z 2 3; of_Z 3 1] = Some (of_Z 5 25).
Proof. repeat split. Qed.

(** ** C07: what div_pow2 computes is neither of the two documented roundings.
    Proved: it is exactly the round-half-up quotient for dividends narrower than
    32 bits and exponents 1..30; exponent zero returns the dividend. *)
Theorem C07_div_pow2_zero : forall n a x b m, (0 < n)%nat -> (0 < m)%nat ->
  represents (TInt n) a x -> represents (TUInt m) b 0 ->
  op_value (TInt n) [TInt n; TUInt m] DivPow2 [a; b] = Some a.
Proof. exact divpow2_zero. Qed.
Print Assumptions C07_div_pow2_zero.
Theorem C07_div_pow2_half_up_partial : forall n a x b m k, (0 < n < 32)%nat ->
  represents (TInt n) a x -> represents (TUInt m) b k -> 1 <= k <= 30 ->
  op_value (TInt n) [TInt n; TUInt m] DivPow2 [a; b] = Some (of_Z n ((x + 2 ^ (k - 1)) / 2 ^ k)).
Proof. exact divpow2_actual. Qed.
Print Assumptions C07_div_pow2_half_up_partial.
(** "Rounds towards positive infinity": 1 / 2^2 should be 1. *)
Theorem C07_rounds_up_refuted : exists n a x b m k r z,
  represents (TInt n) a x /\ represents (TUInt m) b k /\
  op_value (TInt n) [TInt n; TUInt m] DivPow2 [a; b] = Some r /\ represents (TInt n) r z /\
  z <> - ((- x) / 2 ^ k).
Proof.
  exists 8%nat, (of_Z 8 1), 1, (of_Z 8 2), 8%nat, 2, (of_Z 8 0), 0. repeat split. cbn. discriminate.
Qed.
Print Assumptions C07_rounds_up_refuted.
(** "Rounds towards zero": 3 / 2^2 should be 0. *)
Theorem C07_rounds_to_zero_refuted : exists n a x b m k r z,
  represents (TInt n) a x /\ represents (TUInt m) b k /\
  op_value (TInt n) [TInt n; TUInt m] DivPow2 [a; b] = Some r /\ represents (TInt n) r z /\
  z <> Z.quot x (2 ^ k).
Proof.
  exists 8%nat, (of_Z 8 3), 3, (of_Z 8 2), 8%nat, 2, (of_Z 8 1), 1. repeat split. cbn. discriminate.
Qed.
Print Assumptions C07_rounds_to_zero_refuted.
(** Beyond 32 bits even the sign of the rounding term is lost: dividing 2^38 by
    2^32 in 40 bits gives 63 rather than 64 under any rounding. *)
Theorem C07_wide_refuted : exists n a x b m k r z,
  represents (TInt n) a x /\ represents (TUInt m) b k /\
  op_value (TInt n) [TInt n; TUInt m] DivPow2 [a; b] = Some r /\ represents (TInt n) r z /\
  x = 64 * 2 ^ k /\ z = 63.
Proof.
  exists 40%nat, (of_Z 40 (2 ^ 38)), (2 ^ 38), (of_Z 8 32), 8%nat, 32, (of_Z 40 63), 63. repeat split.
Qed.
Print Assumptions C07_wide_refuted.

(** ** C08 *)
Theorem C08_literal : forall n z, (0 < n)%nat -> const_int_value n z = Some (of_Z n z).
Proof. exact const_int_correct. Qed.
Print Assumptions C08_literal.
Theorem C08_literal_signed : forall n z, (0 < n)%nat ->
  - 2 ^ Z.of_nat (n - 1) <= z < 2 ^ Z.of_nat (n - 1) ->
  exists r, const_int_value n z = Some r /\ represents (TInt n) r z.
Proof.
  intros n z Hn H. eexists. split; [now apply const_int_correct|]. now apply represents_of_Z_signed.
Qed.
Print Assumptions C08_literal_signed.
Theorem C08_literal_unsigned : forall n z, (0 < n)%nat -> 0 <= z < 2 ^ Z.of_nat n ->
  exists r, const_int_value n z = Some r /\ represents (TUInt n) r z.
Proof.
  intros n z Hn H. eexists. split; [now apply const_int_correct|]. now apply represents_of_Z_unsigned.
Qed.
Print Assumptions C08_literal_unsigned.
Example C08_nontrivial :
  const_int_value 8 (-128) = Some (of_Z 8 (-128)) /\
  const_int_value 40 (-549755813888) = Some (of_Z 40 (-549755813888)).
Proof. repeat split. Qed.
