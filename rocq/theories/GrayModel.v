(** Gray code in the standard library: spade-compiler/stdlib/num.spade.

    A [uint<N>] is a number from 0 to 2^N-1. *)
From Coq Require Import ZArith.
Local Open Scope Z_scope.

(** num.spade:250-252 [to_gray] *)
Definition to_gray (x : Z) : Z := Z.lxor (Z.shiftr x 1) x.

(** num.spade:401-414 [gray_to_bin_impl].  `trunc` to N-1 bits is a remainder,
    `zext` does nothing to the number, and `1_u1 concat zeros` is 2^(N-1). *)
Fixpoint gray_to_bin (n : nat) (gray : Z) : Z :=
  match n with
  | O => gray
  | S O => gray
  | S (S _ as m) =>
      let high_bit := Z.land gray (2 ^ Z.of_nat m) in
      let lower_gray := (Z.lxor gray (Z.shiftr high_bit 1)) mod 2 ^ Z.of_nat m in
      Z.lor high_bit (gray_to_bin m lower_gray)
  end.
