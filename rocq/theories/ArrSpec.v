(** What the streams of options are to give, in terms of what has been given. *)
From Coq Require Import List Bool Arith.
From Verif Require Import ArrModel.
Import ListNotations.

(** Every element has [w] bits. *)
Definition wide (w : nat) (xs : list bits) : Prop := Forall (fun x => length x = w) xs.

(** The values given in a list of cycles, in order. *)
Definition values_of (ins : list (option bits)) : list bits := flat_map (fun i => match i with Some v => [v] | None => [] end) ins.

(** [outputs spec before ins]: the output of each cycle of [ins], from the cycles up to
    and including it. *)
Fixpoint outputs (spec : list (option bits) -> option bits) (before ins : list (option bits)) : list (option bits) :=
  match ins with [] => [] | i :: ins => spec (before ++ [i]) :: outputs spec (before ++ [i]) ins end.

(** The [N] latest values, the newest first, made up with [default]; nothing in a cycle
    without a value. *)
Definition window_out (N : nat) (default : bits) (ins : list (option bits)) : option bits :=
  match last ins None with
  | Some _ => Some (array (firstn N (rev (values_of ins) ++ repeat default N)))
  | None => None
  end.
(** The [N] latest values, the oldest first, each time a multiple of [N] has been
    reached. *)
Definition chunk_out (N : nat) (ins : list (option bits)) : option bits :=
  let n := length (values_of ins) in
  match last ins None with
  | Some _ => if n mod N =? 0 then Some (array (skipn (n - N) (values_of ins))) else None
  | None => None
  end.
Definition inputs_wide (w : nat) (ins : list (option bits)) : Prop := Forall (fun v => length v = w) (values_of ins).

(** What the entities do, cycle by cycle, without reset. *)
Fixpoint window_run (w N : nat) (default values : bits) (ins : list (option bits)) : list (option bits) :=
  match ins with
  | [] => []
  | i :: ins => let '(o, v) := window_cycle w N default values false i in o :: window_run w N default v ins
  end.
Fixpoint chunks_run (w N : nat) (st : nat * bits) (ins : list (option bits)) : list (option bits) :=
  match ins with
  | [] => []
  | i :: ins => let '(o, st) := chunks_cycle w N st false i in o :: chunks_run w N st ins
  end.
