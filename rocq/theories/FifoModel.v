(** The cross-domain fifo of the standard library: spade-compiler/stdlib/mem.spade
    and cdc.spade.

    Time is a sequence of clock edges: of the write clock, of the read clock, or of
    both at once.  A register takes its new value at an edge of its clock.  When both
    clocks have an edge at once, a register of one domain that samples a register of
    the other may see the old or the new value, bit by bit, and a memory word that is
    read while it is written reads as anything. *)
From Coq Require Import ZArith List Bool.
From Verif Require Import GrayModel.
Import ListNotations.
Local Open Scope Z_scope.

Section Fifo.
Context {D : Type}.
(** mem.spade:219 [AddrWidth] and [NumElements] *)
Variable W : nat.
Variable C : Z.

(** The registers: mem.spade:198 [write_ptr], 151 [read_ptr], 85 [read_result], the
    memory of 83, and those of the two instances of cdc.spade:22-25
    [sync_uint_counter]: [gw], [w1], [w2] carry the write pointer to the reader,
    [gr], [r1], [r2] the read pointer to the writer. *)
Record fifo := {
  wp : Z; rp : Z; read_result : D; memory : Z -> D;
  gw : Z; w1 : Z; w2 : Z;
  gr : Z; r1 : Z; r2 : Z }.

Definition wrap (x : Z) : Z := x mod 2 ^ Z.of_nat W.

(** mem.spade:128-135, 145 *)
Definition seen_wp (s : fifo) : Z := gray_to_bin W (w2 s).
Definition empty (s : fifo) : bool := seen_wp s =? rp s.
(** mem.spade:146-150 *)
Definition rp_next (s : fifo) (ack : bool) : Z :=
  match ack, empty s with true, true => rp s | true, false => wrap (rp s + 1) | false, _ => rp s end.
(** mem.spade:184-190, 196 *)
Definition seen_rp (s : fifo) : Z := gray_to_bin W (r2 s).
Definition full (s : fifo) : bool := wrap (wp s + 1) =? seen_rp s.
(** mem.spade:198-207 *)
Definition taken (s : fifo) (w : option D) : option D :=
  match w, full s with Some v, false => Some v | _, _ => None end.
Definition wp_next (s : fifo) (w : option D) : Z :=
  match taken s w with Some _ => wrap (wp s + 1) | None => wp s end.

(** mem.spade:170-174: what the read port shows *)
Definition shown (s : fifo) : option D := if empty s then None else Some (read_result s).
(** mem.spade:155-166 *)
Definition num_elements (s : fifo) : Z :=
  let write_ptr_abs := if seen_wp s <? rp s then seen_wp s + C else seen_wp s in wrap (write_ptr_abs - rp s).

(** codegen of clocked memories: a write beyond the size has no effect, and a read
    gives anything. *)
Definition store (s : fifo) (w : option D) : Z -> D :=
  match taken s w with
  | Some v => fun a => if (a =? wp s) && (wp s <? C) then v else memory s a
  | None => memory s
  end.
Definition fetch (s : fifo) (a : Z) (junk : D) : D := if a <? C then memory s a else junk.

(** What a register of one domain sees of [old] changing to [new]: the bits of
    [mask] are old. *)
Definition mix (mask old new : Z) : Z := Z.lor (Z.land old mask) (Z.ldiff new mask).

Inductive event :=
| WriteEdge (w : option D) (rst : bool)
| ReadEdge (ack rst : bool) (junk : D)
| BothEdges (w : option D) (wrst : bool) (ack rrst : bool) (mask_w mask_r : Z) (junk : D).

(** A write edge; [g] is what is seen of [gr]. *)
Definition write_edge (s : fifo) (w : option D) (rst : bool) (g : Z) : fifo :=
  {| wp := if rst then 0 else wp_next s w; rp := rp s; read_result := read_result s; memory := store s w;
     gw := to_gray (wp s); w1 := w1 s; w2 := w2 s;
     gr := gr s; r1 := g; r2 := r1 s |}.
(** A read edge; [g] is what is seen of [gw], [out] what is read. *)
Definition read_edge (s : fifo) (ack rst : bool) (g : Z) (out : D) : fifo :=
  {| wp := wp s; rp := if rst then 0 else rp_next s ack; read_result := out; memory := memory s;
     gw := gw s; w1 := g; w2 := w1 s;
     gr := to_gray (rp s); r1 := r1 s; r2 := r2 s |}.
Definition step (s : fifo) (e : event) : fifo :=
  match e with
  | WriteEdge w rst => write_edge s w rst (gr s)
  | ReadEdge ack rst junk => read_edge s ack rst (gw s) (fetch s (rp_next s ack) junk)
  | BothEdges w wrst ack rrst mask_w mask_r junk =>
      let out :=
        match taken s w with
        | Some _ => if rp_next s ack =? wp s then junk else fetch s (rp_next s ack) junk
        | None => fetch s (rp_next s ack) junk
        end in
      {| wp := if wrst then 0 else wp_next s w; rp := if rrst then 0 else rp_next s ack;
         read_result := out; memory := store s w;
         gw := to_gray (wp s); w1 := mix mask_w (gw s) (to_gray (wp s)); w2 := w1 s;
         gr := to_gray (rp s); r1 := mix mask_r (gr s) (to_gray (rp s)); r2 := r1 s |}
  end.
Definition run (s : fifo) (es : list event) : fifo := fold_left step es s.
End Fifo.
Arguments fifo : clear implicits.
Arguments event : clear implicits.
