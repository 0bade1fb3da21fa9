(** Specification of clocked memories. *)
From Coq Require Import List ZArith.
From Verif Require Import Bits CodegenModel CodegenSpec.
Import ListNotations.

(** What one write port asks for at an edge: enable, address, data. *)
Record port := Port { enable : bool; address : nat; data : bits }.

(** The write-port array value a Spade program builds: an array of
    (bool, uint<addr_w>, T) tuples. *)
Definition port_type (addr_w : nat) (t : ty) : ty := TTuple [TBool; TUInt addr_w; t].
Definition builds_ports (addr_w : nat) (t : ty) (ps : list port) (w : bits) : Prop :=
  exists tuples,
    Forall2 (fun p v =>
        address p < 2 ^ addr_w /\ has_width t (data p) /\
        op_value (port_type addr_w t) [TBool; TUInt addr_w; t] ConstructTuple
          [[bit_of_bool (enable p)]; of_Z addr_w (Z.of_nat (address p)); data p] = Some v) ps tuples /\
    op_value (TArray (port_type addr_w t) (length ps)) (repeat (port_type addr_w t) (length ps))
      ConstructArray tuples = Some w.

Definition writes (p : port) (a : nat) : Prop := enable p = true /\ address p = a.

(** [v] is what the highest-numbered port writing [a] writes. *)
Definition last_write (ps : list port) (a : nat) (v : bits) : Prop :=
  exists lower p higher, ps = lower ++ p :: higher /\ writes p a /\ data p = v
    /\ Forall (fun q => ~ writes q a) higher.
