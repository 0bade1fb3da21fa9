(** Clocked memories: spade-mir/src/codegen/mod.rs:525-610 [DeclClockedMemory]
    and 512-514 [IndexMemory].

    A memory is a map from addresses to words; [depth] is the declared length
    (codegen/mod.rs:66-77).  Simplifications: the [initial] block is not
    modelled here, and the memory type has been destructured into its address
    and data widths. *)
From Coq Require Import List ZArith Bool Arith.
From Verif Require Import Bits Verilog CodegenModel.
Import ListNotations.

Section Ports.
  Variables (addr_w inner_w : nat).
  (** line 539 *)
  Definition full_port_width : nat := 1 + addr_w + inner_w.

  (** lines 562-564: the write enable select; operand 1 is the port vector *)
  Definition we_code (port : nat) : vexpr := VBitC (Fwd 1) (full_port_width * (port + 1) - 1).

  (** lines 566-576 *)
  Definition addr_code (port : nat) : vexpr :=
    let addr_start := full_port_width * port + inner_w in
    if addr_w =? 1 then VBitC (Fwd 1) addr_start
    else VRange (Fwd 1) (addr_start + addr_w - 1) addr_start.

  (** lines 578-594 *)
  Definition value_code (port : nat) : vexpr :=
    let write_value_start := port * full_port_width in
    if inner_w =? 1 then VBitC (Fwd 1) write_value_start
    else VRange (Fwd 1) (write_value_start + inner_w - 1) write_value_start.

  Definition self_value (r : env) (e : vexpr) : bits := eval r (width r e) (signed e) e.

  (** lines 597-601: [if (we) begin mem[addr] <= value; end].  Verilog ignores a
      write to an unknown address and treats an unknown enable as false. *)
  Definition port_write (w : bits) (port : nat) : option (Z * bits) :=
    let r := operand_env [[]; w] in
    match truth (self_value r (we_code port)) with
    | B1 =>
        match uval (self_value r (addr_code port)) with
        | Some a => Some (a, assign_val r inner_w (value_code port))
        | None => None
        end
    | _ => None
    end.
End Ports.

Definition memory := nat -> bits.
Definition mem_set (m : memory) (a : nat) (v : bits) : memory :=
  fun b => if b =? a then v else m b.

(** One rising edge: the ports in source order, non-blocking, so the textually
    last enabled write to an address wins; writes past [depth] are ignored. *)
Definition clock_edge (depth addr_w inner_w ports : nat) (w : bits) (m : memory) : memory :=
  fold_left
    (fun m port =>
       match port_write addr_w inner_w w port with
       | Some (a, v) => if (a <? Z.of_nat depth)%Z then mem_set m (Z.to_nat a) v else m
       | None => m
       end)
    (seq 0 ports) m.

(** A history of port vectors, one per rising edge. *)
Definition run_memory (depth addr_w inner_w ports : nat) (hist : list bits) (m : memory) : memory :=
  fold_left (fun m w => clock_edge depth addr_w inner_w ports w m) hist m.

(** lines 512-514 *)
Definition read_memory (depth inner_w : nat) (m : memory) (addr : bits) : bits :=
  match uval addr with
  | Some a => if (a <? Z.of_nat depth)%Z then m (Z.to_nat a) else xs inner_w
  | None => xs inner_w
  end.
