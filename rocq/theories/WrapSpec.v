(** What test benches rely on. *)
From Coq Require Import List NArith Arith Bool String.
Import ListNotations.
Open Scope nat_scope. Open Scope list_scope.
From Verif Require Import WrapModel.

(** The number a port holds *)
Fixpoint little_endian (l : list N) : N := match l with [] => 0%N | x :: l => (x + 2 ^ 32 * little_endian l)%N end.
Definition number (p : port) : N := match p with Scalar n => n | Words l => little_endian l end.
(** A port of [w] bits: up to 64 bits one number, above as many words of 32 bits as are needed *)
Definition shape (w : nat) (p : port) : Prop :=
  match p with
  | Scalar _ => w <= 64
  | Words l => 64 < w /\ 32 * (List.length l - 1) < w <= 32 * List.length l /\ (forall x, In x l -> (x < 2 ^ 32)%N)
  end.
(** [s] are the [w] lowest bits of [n], most significant first *)
Definition written (w : nat) (n : N) (s : list bool) : Prop :=
  List.length s = w /\ forall i, i < w -> nth_error s i = Some (N.testbit n (N.of_nat (w - 1 - i))).
(** The field one gets to from a type by names *)
Inductive field : ty -> list string -> ty -> Prop :=
| f_here t : field t [] t
| f_in l n t p u : In (n, t) l -> field t p u -> field (Struct l) (n :: p) u.
(** The class a path of members leads to *)
Inductive reaches (cs : list class) : string -> list string -> class -> Prop :=
| r_here c : In c cs -> reaches cs (name c) [] c
| r_in c n k p d : In c cs -> In (n, k) (members c) -> reaches cs k p d -> reaches cs (name c) (n :: p) d.
