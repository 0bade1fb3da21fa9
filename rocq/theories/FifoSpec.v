(** What a user sees of the fifo. *)
From Coq Require Import ZArith List Bool.
From Verif Require Import GrayModel FifoModel.
Import ListNotations.
Local Open Scope Z_scope.

Section Spec.
Context {D : Type}.
Variable W : nat.
Variable C : Z.

(** A value is put in at a write edge at which it is offered and the fifo does not
    say it is full. *)
Definition put (s : fifo D) (e : event D) : list D :=
  match e with
  | WriteEdge (Some v) false | BothEdges (Some v) false _ _ _ _ _ => if full W s then [] else [v]
  | _ => []
  end.
(** A value is taken out at a read edge at which it is shown and acknowledged. *)
Definition got (s : fifo D) (e : event D) : list D :=
  match e with
  | ReadEdge true false _ | BothEdges _ _ true false _ _ _ => match shown W s with Some v => [v] | None => [] end
  | _ => []
  end.
Fixpoint puts (s : fifo D) (es : list (event D)) : list D :=
  match es with [] => [] | e :: es => put s e ++ puts (step W C s e) es end.
Fixpoint gots (s : fifo D) (es : list (event D)) : list D :=
  match es with [] => [] | e :: es => got s e ++ gots (step W C s e) es end.

Definition quiet (e : event D) : bool :=
  match e with
  | WriteEdge _ rst => negb rst
  | ReadEdge _ rst _ => negb rst
  | BothEdges _ wrst _ rrst _ _ _ => negb wrst && negb rrst
  end.
Definition in_reset (e : event D) : bool :=
  match e with
  | WriteEdge _ rst => rst
  | ReadEdge _ rst _ => rst
  | BothEdges _ wrst _ rrst _ _ _ => wrst && rrst
  end.
Definition write_edges (es : list (event D)) : nat :=
  List.length (filter (fun e => match e with ReadEdge _ _ _ => false | _ => true end) es).
Definition read_edges (es : list (event D)) : nat :=
  List.length (filter (fun e => match e with WriteEdge _ _ => false | _ => true end) es).

(** All pointers zero, also those on their way; memory and output arbitrary. *)
Definition fresh (s : fifo D) : Prop :=
  wp s = 0 /\ rp s = 0 /\ gw s = 0 /\ w1 s = 0 /\ w2 s = 0 /\ gr s = 0 /\ r1 s = 0 /\ r2 s = 0.
End Spec.
